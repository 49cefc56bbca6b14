(** * Simp: parts of src/simpy/simplify/simplify.py that do not use the pattern matcher, with
    monotonicity and soundness. *)
From Coquelicot Require Import Coquelicot.
From Verif Require Export Regex ExpandSound.

Section Simp.
Context (fk : fkern).

(** log(x), base e by default *)
Definition logE (e : expr) : res expr := k_log fk e EE.

(** [x.expand() if x.expandable() else x]; [n] bounds the recursion of expand. *)
Definition expand_if (n : nat) (e : expr) : res expr :=
  b <- expandable fk e;; if b : bool then expandE fk n e else Ok e.

(** [Sum([log(t) for t in ts])] and [Sum([log(abs(t)) for t in ts])] *)
Definition sum_logs (ts : list expr) : res expr := ls <- mapM logE ts;; k_sum fk ls.
Definition sum_logs_abs (ts : list expr) : res expr :=
  ls <- mapM (fun t => a <- op_abs fk t;; logE a) ts;; k_sum fk ls.

(** _log_perform, simplify.py:32-58.  The base of the logarithm is ignored: strict mode stops
    unless it is e (see C44).  inner.factor() is computed twice in Python. *)
Definition log_perform (e : expr) : res pres :=
  match e with
  | ELog i b =>
      guard (negb (k_strict fk) || is_e b)
      (r <- match i with
       | EPow p x => l <- logE p;; op_mul fk l x
       | EProd ts => sum_logs ts
       | ESum ts => f <- factorE fk ts;; match f with EProd us => sum_logs us | _ => logE i end
       | ETrig Sec j => c <- k_trig fk Cos j;; l <- logE c;; op_mul fk (ERat (-1)) l
       | ETrig Csc j => c <- k_trig fk Sin j;; l <- logE c;; op_mul fk (ERat (-1)) l
       | ETrig Cot j => c <- k_trig fk Tan j;; l <- logE c;; op_mul fk (ERat (-1)) l
       | EAbs (EPow p x) => a <- op_abs fk p;; l <- logE a;; op_mul fk l x
       | EAbs (EProd ts) => sum_logs_abs ts
       | EAbs (ESum ts) =>
           f <- factorE fk ts;; match f with EProd us => sum_logs_abs us | _ => logE i end
       | _ => logE i
       end;;
       Ok (PNew r))
  | _ => Ok PNone
  end.

(** expand_logs, simplify.py:27-29 *)
Definition expand_logs (n : nat) (e : expr) : res expr :=
  '(a, _) <- kinder_replace fk log_perform e;; expand_if n a.

(** rewrite_as_one_fraction, simplify.py:161-202. *)
Definition term_numden (icd : bool) (t : expr) : res (expr * expr * bool) :=
  match t with
  | EProd ts =>
      '(n, d) <- numdenF fk ts;;
      Ok (n, d, negb (isq d 1) && (icd || negb (Nat.eqb (List.length (symbols d)) 0)))
  | EPow b (ERat q) =>
      if qlt0 q then x <- op_neg fk (ERat q);; d <- k_pow fk b x;; Ok (ERat 1, d, true)
      else Ok (t, ERat 1, false)
  | _ => Ok (t, ERat 1, false)
  end.
(** add_common_den, simplify.py:173-178 *)
Fixpoint add_common (acc fs : list expr) : res (list expr) :=
  match fs with
  | [] => Ok acc
  | f :: r =>
      b <- anyM (fun t => k_eq fk t f) acc;;
      add_common (if b : bool then acc else acc ++ [f]) r
  end.
Definition den_factors (d : expr) : list expr := match d with EProd ds => ds | _ => [d] end.
Definition one_fraction (icd : bool) (e : expr) : res (option expr) :=
  match e with
  | ESum ts =>
      l <- mapM (term_numden icd) ts;;
      cd <- foldM (fun acc t => add_common acc (den_factors (snd (fst t)))) l [];;
      if existsb snd l then
        c <- k_prod fk cd;;
        ns <- mapM (fun t => m <- op_mul fk (fst (fst t)) c;; op_div fk m (snd (fst t))) l;;
        s <- k_sum fk ns;;
        r <- op_div fk s c;; Ok (Some r)
      else Ok None
  | _ => Ok (Some e)
  end.

(** _reciprocate_trigs, simplify.py:205-215, and reciprocate_trigs 237-244 *)
Definition reciprocate1 (e : expr) : res pres :=
  match e with
  | EPow (ETrig f i) (ERat q) =>
      if qlt0 q then
        match reciprocal_class f with
        | Some g => b <- k_trig fk g i;; x <- op_neg fk (ERat q);; r <- k_pow fk b x;; Ok (PNew r)
        | None => Ok PNone
        end
      else Ok PNone
  | _ => Ok PNone
  end.
Definition reciprocate_trigs (e : expr) : res expr :=
  '(a, _) <- kinder_replace_many fk (fun _ => true) [reciprocate1] e;; Ok a.

(** remove_num_factor, simplify.py:300-305 *)
Definition remove_num_factor (e : expr) : expr :=
  match e with
  | EProd ts =>
      match filter (fun t => negb (is_num t)) ts with [] => ERat 1 | [t] => t | us => EProd us end
  | _ => e
  end.
(** is_cls_squared and is_class_squared, simplify.py:291-297, 308-310 *)
Definition is_cls_squared (f : trig) (e : expr) : bool :=
  match e with
  | EPow (ETrig g _) (ERat q) => trig_eqb g f && qis0 (qmod q 2)
  | _ => false
  end.
Definition is_class_squared (f : trig) (e : expr) : bool := is_cls_squared f (remove_num_factor e).

(** The perform of sectan, simplify.py:339-341: (1 + tan(u)**2) ** (n // 2). *)
Definition sec_to_tan (e : expr) : res expr :=
  match e with
  | EPow (ETrig _ i) (ERat q) =>
      t <- k_trig fk Tan i;; s <- op_pow fk t (ERat 2);; o <- op_add fk (ERat 1) s;;
      op_pow fk o (ratz (Qfloor (q / 2)))
  | _ => Raise AttributeError
  end.
(** sectan, simplify.py:313-355.  The last comparison, [len(new_sum.terms) < sum.terms], compares
    an int with a list and raises TypeError. *)
Definition sectan (n : nat) (e : expr) : res pres :=
  match e with
  | ESum ts =>
      let secs := filter (is_class_squared Sec) ts in
      let tans := filter (fun t => negb (is_class_squared Sec t) && is_class_squared Tan t) ts in
      let others := filter (fun t => negb (is_class_squared Sec t) && negb (is_class_squared Tan t)) ts in
      match secs, tans with
      | [], _ | _, [] => Ok PNone
      | _, _ =>
          news <- mapM (fun s =>
            w <- replace_factory fk (fun t => Ok (is_cls_squared Sec t)) sec_to_tan s;;
            b <- expandable fk w;;
            w' <- (if b : bool then expandE fk n w else Ok s);;
            match w' with ESum us => Ok us | _ => Raise AssertionError end) secs;;
          r <- k_sum fk (tans ++ List.concat news ++ others);;
          match r with ESum _ => Raise TypeError | _ => Ok (PNew r) end
      end
  | _ => Ok PNone
  end.

(** is_simpler, simplify.py:358-362 *)
Definition is_simpler (a b : expr) : bool := Nat.ltb (count_symbols a) (count_symbols b).
End Simp.

(** ** Monotonicity *)
Section SimpMono.
Context (f1 f2 : fkern) (HF : fle f1 f2).

Lemma logE_mono e : rle (logE f1 e) (logE f2 e).
Proof. apply HF. Qed.
#[local] Hint Resolve logE_mono : mono.
Lemma expand_if_mono n m e : (n <= m)%nat -> rle (expand_if f1 n e) (expand_if f2 m e).
Proof.
  intros H. pose proof (expandable_mono f1 f2 HF). unfold expand_if. mono. now apply expandE_mono.
Qed.
Lemma sum_logs_mono ts : rle (sum_logs f1 ts) (sum_logs f2 ts).
Proof. unfold sum_logs. mono. Qed.
Lemma sum_logs_abs_mono ts : rle (sum_logs_abs f1 ts) (sum_logs_abs f2 ts).
Proof. unfold sum_logs_abs. mono. Qed.
#[local] Hint Resolve sum_logs_mono sum_logs_abs_mono factorE_mono : mono.
Lemma log_perform_mono e : rle (log_perform f1 e) (log_perform f2 e).
Proof.
  unfold log_perform. destruct e; try apply rle_refl.
  apply guard_mono; [apply nstrict_mono; auto|]. apply rle_bind; [|intros; apply rle_refl].
  destruct e1; mono; destruct e1; mono.
Qed.
Lemma expand_logs_mono n m e : (n <= m)%nat -> rle (expand_logs f1 n e) (expand_logs f2 m e).
Proof.
  intros H. unfold expand_logs, kinder_replace. apply rle_bind.
  - apply kinder_mono; auto. constructor; [apply log_perform_mono|constructor].
  - intros []. now apply expand_if_mono.
Qed.
Lemma term_numden_mono icd t : rle (term_numden f1 icd t) (term_numden f2 icd t).
Proof. pose proof (numdenF_mono f1 f2 HF). unfold term_numden. destruct t; mono. Qed.
Lemma add_common_mono fs : forall acc, rle (add_common f1 acc fs) (add_common f2 acc fs).
Proof. induction fs as [|f fs IH]; intros acc; cbn [add_common]; mono. Qed.
Lemma one_fraction_mono icd e : rle (one_fraction f1 icd e) (one_fraction f2 icd e).
Proof.
  pose proof (term_numden_mono icd). pose proof add_common_mono. unfold one_fraction. mono.
Qed.
Lemma reciprocate1_mono e : rle (reciprocate1 f1 e) (reciprocate1 f2 e).
Proof. unfold reciprocate1. mono. Qed.
Lemma reciprocate_trigs_mono e : rle (reciprocate_trigs f1 e) (reciprocate_trigs f2 e).
Proof.
  unfold reciprocate_trigs. apply rle_bind; [|intros []; apply rle_refl].
  apply kinder_mono; auto. constructor; [apply reciprocate1_mono|constructor].
Qed.
Lemma sec_to_tan_mono e : rle (sec_to_tan f1 e) (sec_to_tan f2 e).
Proof. unfold sec_to_tan. mono. Qed.
Lemma replace_factory_mono c1 c2 p1 p2 e : (forall t, rle (c1 t) (c2 t)) -> (forall t, rle (p1 t) (p2 t)) ->
  rle (replace_factory f1 c1 p1 e) (replace_factory f2 c2 p2 e).
Proof.
  intros Hc Hp. unfold replace_factory, replace_factory_list. apply rle_bind; [|intros []; apply rle_refl].
  apply walk_mono; auto. intros t. cbn [first_cond]. mono.
Qed.
Lemma sectan_mono n m e : (n <= m)%nat -> rle (sectan f1 n e) (sectan f2 m e).
Proof.
  intros H. pose proof (expandable_mono f1 f2 HF). pose proof (fun e => expandE_mono f1 f2 HF n m e H).
  assert (RF : forall s, rle (replace_factory f1 (fun t => Ok (is_cls_squared Sec t)) (sec_to_tan f1) s)
     (replace_factory f2 (fun t => Ok (is_cls_squared Sec t)) (sec_to_tan f2) s)).
  { intros. apply replace_factory_mono; auto using sec_to_tan_mono, rle_refl. }
  unfold sectan. destruct e; try apply rle_refl. cbv zeta. mono.
Qed.
End SimpMono.

(** ** Soundness *)
Lemma mapM_rel {A B} (f : A -> res B) (P : A -> Prop) (Q : A -> B -> Prop) ts us :
  mapM f ts = Ok us -> (forall t u, f t = Ok u -> P t -> Q t u) -> Forall P ts -> Forall2 Q ts us.
Proof.
  intros H HQ HP. apply mapM_ok in H. induction H as [|t u ts us Htu _ IH]; constructor; inversion HP; subst; auto.
Qed.

Section SimpSound.
Context (rho : env) (fk : fkern) (HF : FSound rho fk).
Let HG : GSound rho fk := f_k _ _ HF.
Local Notation W := (wd rho).
Local Notation V := (ev rho).

Lemma logE_sound e l : logE fk e = Ok l -> W e -> 0 < V e /\ W l /\ V l = ln (V e).
Proof.
  intros H We. apply (f_log _ _ HF) in H as ((N1 & _) & Wl & El); simpl; auto.
  split; [now apply rp_gt0|]. split; auto. rewrite El. simpl. rewrite ln_exp. field.
Qed.
Lemma expand_if_sound n e e' : expand_if fk n e = Ok e' -> W e -> good rho e e'.
Proof.
  unfold expand_if. intros H We. apply bind_ok in H as (b & _ & H). destruct b.
  - eapply expandE_sound; eauto.
  - injection H as <-. split; auto.
Qed.

Lemma Rprod_pos l : Forall (fun x => 0 < x) l -> 0 < Rprod l.
Proof. induction 1; simpl; [lra|]. now apply Rmult_lt_0_compat. Qed.
Lemma ln_Rprod l : Forall (fun x => 0 < x) l -> ln (Rprod l) = Rsum (map ln l).
Proof.
  induction 1 as [|x l Hx Hl IH]; simpl; [apply ln_1|]. rewrite ln_mult, IH; auto. now apply Rprod_pos.
Qed.
Lemma Rabs_Rprod l : Rabs (Rprod l) = Rprod (map Rabs l).
Proof. induction l as [|x l IH]; simpl; [apply Rabs_R1|]. now rewrite Rabs_mult, IH. Qed.

Lemma sum_logs_sound ts e : sum_logs fk ts = Ok e -> Forall W ts ->
  0 < Rprod (map V ts) /\ W e /\ V e = ln (Rprod (map V ts)).
Proof.
  unfold sum_logs. intros H Wt. apply bind_ok in H as (ls & Hl & H).
  apply (mapM_rel _ W (fun t l => 0 < V t /\ W l /\ V l = ln (V t))) in Hl; auto using logE_sound.
  assert (P : Forall (fun x => 0 < x) (map V ts) /\ Forall W ls /\ map V ls = map ln (map V ts)).
  { clear -Hl. induction Hl as [|t l ts ls (A & B & C) _ (IH1 & IH2 & IH3)]; simpl; auto.
    repeat split; try constructor; auto. now rewrite C, IH3. }
  destruct P as (P1 & P2 & P3). split; [now apply Rprod_pos|].
  apply (g_sum _ _ HG) in H as [A B]; auto. split; auto. now rewrite B, P3, ln_Rprod.
Qed.
Lemma sum_logs_abs_sound ts e : sum_logs_abs fk ts = Ok e -> Forall W ts ->
  0 < Rabs (Rprod (map V ts)) /\ W e /\ V e = ln (Rabs (Rprod (map V ts))).
Proof.
  unfold sum_logs_abs. intros H Wt. apply bind_ok in H as (ls & Hl & H).
  apply (mapM_rel _ W (fun t l => 0 < Rabs (V t) /\ W l /\ V l = ln (Rabs (V t)))) in Hl; auto.
  2:{ intros t l Ht Wt'. apply bind_ok in Ht as (a & Ha & Ht). apply (g_oabs _ _ HG) in Ha as [A B]; auto.
      apply logE_sound in Ht as (X & Y & Z); auto. rewrite B in X, Z. auto. }
  assert (P : Forall (fun x => 0 < x) (map Rabs (map V ts)) /\ Forall W ls /\ map V ls = map ln (map Rabs (map V ts))).
  { clear -Hl. induction Hl as [|t l ts ls (A & B & C) _ (IH1 & IH2 & IH3)]; simpl; auto.
    repeat split; try constructor; auto. now rewrite C, IH3. }
  destruct P as (P1 & P2 & P3). rewrite Rabs_Rprod. split; [now apply Rprod_pos|].
  apply (g_sum _ _ HG) in H as [A B]; auto. split; auto. now rewrite B, P3, ln_Rprod.
Qed.

Lemma rpow_abs b x : pdom rho b x -> V b <> 0 -> Rabs (rpow (V b) (V x)) = rpow (Rabs (V b)) (V x).
Proof.
  intros [(q & -> & Hi & _)|P] Hn.
  - simpl. rewrite (qisint_Q2R _ Hi). generalize (numer q). intros z.
    rewrite !rpow_int by (left; auto; now apply Rabs_no_R0). 
    destruct z; simpl; [apply Rabs_R1| |].
    + now rewrite RPow_abs.
    + rewrite Rabs_inv. now rewrite RPow_abs.
  - apply rp_gt0 in P. rewrite !(Rabs_pos_eq (V b)) by lra. rewrite rpow_pos by auto.
    apply Rabs_pos_eq. left. apply exp_pos.
Qed.
Lemma ln_rpow b x : 0 < b -> ln (rpow b x) = x * ln b.
Proof. intros H. rewrite rpow_pos by auto. unfold Rpower. apply ln_exp. Qed.

Lemma log_perform_sound e e' : log_perform fk e = Ok (PNew e') -> W e -> good rho e e'.
Proof.
  unfold log_perform. intros H We. destruct e as [| | | | | | | | | |i b| |]; try discriminate.
  apply guard_ok in H as [Hg H]. rewrite (f_strict _ _ HF) in Hg. simpl in Hg.
  destruct b; try discriminate. clear Hg.
  assert (G : forall v, V v = ln (V i) -> W v -> good rho (ELog i EE) v).
  { intros v Ev Wv. split; auto. rewrite Ev. simpl. rewrite ln_exp. field. }
  apply bind_ok in H as (r & H & H1). injection H1 as <-.
  destruct We as (Wi & _ & Pi & _).
  assert (D : logE fk i = Ok r -> good rho (ELog i EE) r).
  { intros Hl. apply logE_sound in Hl as (_ & X & Y); auto. }
  destruct i as [q| | | | |s| |ts|ts|p x|u v|f j|u]; auto.
  - (* Sum *) apply bind_ok in H as (fa & Hf & H). 
    apply (factorE_sound rho fk HF) in Hf as [F1 F2]; auto.
    destruct fa as [| | | | | | | |us| | | |]; auto. apply wd_prod in F1 as [F1 _].
    apply sum_logs_sound in H as (_ & X & Y); auto. apply G; auto. rewrite Y. f_equal. exact F2.
  - (* Prod *) apply wd_prod in Wi as [Wi _]. apply sum_logs_sound in H as (_ & X & Y); auto.
  - (* Power *) destruct Wi as (Wp & Wx & Pd). apply bind_ok in H as (l & Hl & H).
    apply logE_sound in Hl as (P & X & Y); auto. apply (g_mul _ _ HG) in H as [M1 M2]; auto.
    apply G; auto. rewrite M2, Y. simpl. rewrite ln_rpow by auto. ring.
  - (* Trig *) destruct Wi as [Wj Tj].
    destruct f; auto; apply bind_ok in H as (t & Ht & H); apply bind_ok in H as (l & Hl & H);
      apply (f_trig _ _ HF) in Ht as (T0 & T1 & T2); auto;
      apply logE_sound in Hl as (P & X & Y); auto;
      (apply (g_mul _ _ HG) in H as [M1 M2]; [|exact I|auto]); apply G; auto; rewrite M2, Y, T2 in *;
      simpl in *; rewrite Q2R_m1.
    + rewrite ln_Rinv by auto. ring.
    + rewrite ln_Rinv by auto. ring.
    + replace (cos (V j) / sin (V j)) with (/ (sin (V j) / cos (V j))).
      * rewrite ln_Rinv by auto. ring.
      * field. split; auto.
  - (* Abs *) destruct u as [q| | | | |s| |ts|ts|p x|u v|f j|u]; auto.
    + apply bind_ok in H as (fa & Hf & H). apply (factorE_sound rho fk HF) in Hf as [F1 F2]; auto.
      destruct fa as [| | | | | | | |us| | | |]; auto. apply wd_prod in F1 as [F1 _].
      apply sum_logs_abs_sound in H as (_ & X & Y); auto. apply G; auto. rewrite Y.
      change (Rprod (map V us)) with (V (EProd us)). now rewrite F2.
    + apply wd_prod in Wi as [Wi _]. apply sum_logs_abs_sound in H as (_ & X & Y); auto.
    + destruct Wi as (Wp & Wx & Pd). apply bind_ok in H as (a & Ha & H). apply bind_ok in H as (l & Hl & H).
      apply (g_oabs _ _ HG) in Ha as [A1 A2]; auto.
      apply logE_sound in Hl as (P & X & Y); auto. apply (g_mul _ _ HG) in H as [M1 M2]; auto.
      apply G; auto. rewrite M2, Y, A2 in *. simpl.
      rewrite rpow_abs, ln_rpow; auto; [ring|]. intros E. rewrite E, Rabs_R0 in P. lra.
Qed.

Theorem expand_logs_sound n e e' : expand_logs fk n e = Ok e' -> W e -> good rho e e'.
Proof.
  unfold expand_logs, kinder_replace. intros H We. apply bind_ok in H as ([a h] & Ha & H).
  apply (kinder_sound rho fk HF) in Ha as [A1 A2]; auto.
  - apply expand_if_sound in H as [B1 B2]; auto. split; auto. congruence.
  - constructor; [|constructor]. apply log_perform_sound.
Qed.

(** *** Common denominators *)
Lemma term_numden_sound icd t n d h : term_numden fk icd t = Ok (n, d, h) -> W t ->
  W n /\ W d /\ V d <> 0 /\ V t = V n / V d.
Proof.
  intros H Wt. unfold term_numden in H.
  assert (D : Ok (t, ERat 1, false) = Ok (n, d, h) -> W n /\ W d /\ V d <> 0 /\ V t = V n / V d).
  { intros E. injection E as <- <- <-. repeat split; simpl; auto; rewrite ?Q2R_1; try lra. }
  destruct t as [| | | | | | | |ts|b x| | |]; auto.
  - apply bind_ok in H as ([n' d'] & Hnd & H). apply wd_prod in Wt as [Wt _].
    apply (numdenF_sound rho fk HF) in Hnd as (A & B & C & E); auto. injection H as <- <- _. auto.
  - destruct x; auto. destruct (qlt0 q) eqn:Hq; auto.
    destruct Wt as (Wb & _ & Pd).
    apply bind_ok in H as (x & Hx & H). apply bind_ok in H as (d' & Hd & H). injection H as <- <- _.
    apply (g_neg _ _ HG) in Hx as [X1 X2]; [|exact I].
    apply (g_pow _ _ HG) in Hd as (D0 & D1 & D2); auto.
    assert (Nb : V b <> 0) by (eapply pdom_neg; eauto).
    assert (R : V (EPow b (ERat q)) = / rpow (V b) (V x) /\ rpow (V b) (V x) <> 0).
    { rewrite X2. simpl. destruct Pd as [(q' & E & Hi & _)|P].
      - injection E as <-. rewrite (qisint_Q2R _ Hi), <- opp_IZR. rewrite !rpow_int by auto.
        rewrite powerRZ_neg'. rewrite Rinv_inv. split; auto.
        apply Rinv_neq_0_compat. now apply powerRZ_NOR.
      - apply rp_gt0 in P. rewrite !rpow_pos by auto. rewrite Rpower_Ropp, Rinv_inv. split; auto.
        apply Rinv_neq_0_compat. apply Rgt_not_eq. apply exp_pos. }
    destruct R as [R1 R2]. rewrite <- D2 in R1, R2. repeat split; auto. rewrite R1. simpl. rewrite Q2R_1. field; auto.
Qed.

Lemma add_common_wd fs : forall acc r, add_common fk acc fs = Ok r -> Forall W acc -> Forall W fs -> Forall W r.
Proof.
  induction fs as [|f fs IH]; intros acc r H Wa Wf; cbn [add_common] in H; [injection H as <-; auto|].
  apply bind_ok in H as (b & _ & H). inversion Wf; subst. eapply IH; eauto.
  destruct b; auto. apply Forall_app. auto.
Qed.

Theorem one_fraction_sound icd e e' : one_fraction fk icd e = Ok (Some e') -> W e -> good rho e e'.
Proof.
  unfold one_fraction. intros H We. destruct e as [| | | | | | |ts| | | | |]; try (injection H as <-; split; auto; fail).
  apply wd_sum in We. apply bind_ok in H as (l & Hl & H). apply bind_ok in H as (cd & Hcd & H).
  destruct (existsb snd l); [|discriminate].
  apply bind_ok in H as (c & Hc & H). apply bind_ok in H as (ns & Hns & H). apply bind_ok in H as (s & Hs & H).
  apply bind_ok in H as (r & Hr & H). injection H as <-.
  apply (mapM_rel _ W (fun t p => W (fst (fst p)) /\ W (snd (fst p)) /\ V (snd (fst p)) <> 0 /\
    V t = V (fst (fst p)) / V (snd (fst p)))) in Hl; auto.
  2:{ intros t [[n d] h] Ht Wt. eapply term_numden_sound; eauto. }
  assert (Wl : Forall (fun p => W (snd (fst p))) l) by (clear -Hl; induction Hl as [|? ? ? ? (_ & A & _)]; constructor; auto).
  assert (Wcd : Forall W cd).
  { assert (X : forall l acc r, foldM (fun acc (t : expr * expr * bool) => add_common fk acc (den_factors (snd (fst t)))) l acc = Ok r ->
      Forall (fun p => W (snd (fst p))) l -> Forall W acc -> Forall W r).
    { clear. induction l as [|p l IH]; intros acc r H Hl Ha; cbn [foldM] in H; [injection H as <-; auto|].
      apply bind_ok in H as (acc' & H1 & H). inversion Hl as [|? ? Wp Hl']; subst. eapply IH; eauto.
      eapply add_common_wd; eauto. unfold den_factors. destruct (snd (fst p)) eqn:E; try (constructor; [exact Wp|constructor]).
      now apply wd_prod in Wp. }
    eapply X; eauto. }
  apply (g_prod _ _ HG) in Hc as [C1 C2]; auto.
  apply (mapM_rel _ (fun p => W (fst (fst p)) /\ W (snd (fst p))) (fun p m => W m /\ V m = V (fst (fst p)) * V c / V (snd (fst p)))) in Hns.
  - assert (N : Forall W ns /\ Rsum (map V ns) = Rsum (map V ts) * V c).
    { clear -Hl Hns. revert ns Hns. induction Hl as [|t p ts l (A1 & A2 & A3 & A4) _ IH]; intros ns Hns; inversion Hns; subst; simpl.
      - split; auto. ring.
      - destruct H1 as [B1 B2]. destruct (IH _ H3) as [I1 I2]. split; [constructor; auto|].
        rewrite B2, I2, A4. field. auto. }
    destruct N as [N1 N2]. apply (g_sum _ _ HG) in Hs as [S1 S2]; auto.
    apply (g_div _ _ HG) in Hr as (R0 & R1 & R2); auto. split; auto. rewrite R2, S2, N2. simpl. field. auto.
  - intros [[n d] h] m Hm (Wn & Wd). cbn [fst snd] in *. apply bind_ok in Hm as (x & Hx & Hm).
    apply (g_mul _ _ HG) in Hx as [X1 X2]; auto. apply (g_div _ _ HG) in Hm as (M0 & M1 & M2); auto.
    split; auto. now rewrite M2, X2.
  - clear -Hl. induction Hl as [|? ? ? ? (A & B & _)]; constructor; auto.
Qed.

(** *** Reciprocals of trig powers *)
Lemma tev_recip f g i v : reciprocal_class f = Some g -> tdom f v -> tdom g v -> i = v -> tev g v = / tev f v /\ tev f v <> 0.
Proof.
  intros H Hf Hg _. destruct f; try discriminate; injection H as <-; simpl in *; unfold Rdiv;
    rewrite ?Rinv_mult, ?Rinv_inv; (split; [try ring; try reflexivity|]);
    try (apply Rmult_integral_contrapositive; split); auto using Rinv_neq_0_compat.
Qed.
Lemma rpow_recip a q : a <> 0 -> (0 < a \/ qisint q = true) -> rpow (/ a) (- Q2R q) = rpow a (Q2R q).
Proof.
  intros Ha H. destruct (Rlt_dec 0 a) as [P|P].
  - rewrite !rpow_pos; auto; [|now apply Rinv_0_lt_compat]. unfold Rpower. rewrite ln_Rinv by auto. f_equal. ring.
  - destruct H as [H|H]; [lra|]. rewrite (qisint_Q2R _ H), <- opp_IZR.
    rewrite !rpow_int; auto; [|left; now apply Rinv_neq_0_compat].
    rewrite powerRZ_neg'.
    rewrite powerRZ_inv', Rinv_inv. reflexivity.
Qed.
Lemma reciprocate1_sound e e' : reciprocate1 fk e = Ok (PNew e') -> W e -> good rho e e'.
Proof.
  unfold reciprocate1. intros H We. destruct e as [| | | | | | | | |b x| | |]; try discriminate.
  destruct b; try discriminate. destruct x; try discriminate. destruct (qlt0 q) eqn:Hq; [|discriminate].
  destruct (reciprocal_class f) as [g|] eqn:Hg; [|discriminate].
  destruct We as ((Wb & Tf) & _ & Pd). apply bind_ok in H as (t & Ht & H). apply bind_ok in H as (x & Hx & H).
  apply bind_ok in H as (r & Hr & H). injection H as <-.
  apply (f_trig _ _ HF) in Ht as (Tg & T1 & T2); auto. apply (g_neg _ _ HG) in Hx as [X1 X2]; [|exact I].
  apply (g_pow _ _ HG) in Hr as (_ & R1 & R2); auto. split; auto. rewrite R2, T2, X2.
  destruct (tev_recip f g _ _ Hg Tf Tg eq_refl) as [E N]. rewrite E. simpl. apply rpow_recip; auto.
  destruct Pd as [(q' & E' & Hi & _)|P]; [injection E' as <-; auto|]. left. now apply rp_gt0 in P.
Qed.
Theorem reciprocate_trigs_sound e e' : reciprocate_trigs fk e = Ok e' -> W e -> good rho e e'.
Proof.
  unfold reciprocate_trigs. intros H We. apply bind_ok in H as ([a h] & Ha & H). injection H as <-.
  refine (kinder_sound rho fk HF _ [reciprocate1 fk] _ e a h Ha We).
  constructor; [|constructor]. apply reciprocate1_sound.
Qed.

(** *** sectan *)
Lemma replace_factory_sound c p e e' :
  (forall t t', c t = Ok true -> p t = Ok t' -> W t -> good rho t t') ->
  replace_factory fk c p e = Ok e' -> W e -> good rho e e'.
Proof.
  intros HP H We. unfold replace_factory, replace_factory_list in H. apply bind_ok in H as ([a h] & Ha & H).
  injection H as <-. eapply (walk_sound rho rho fk HF); eauto.
  intros t t' h' Ht Wt. cbn [first_cond] in Ht. apply bind_ok in Ht as (b & Hb & Ht). destruct b; [|discriminate].
  apply bind_ok in Ht as (x & Hx & Ht). injection Ht as <- <-. now apply HP.
Qed.

Lemma qmod2_even q : qis0 (qmod q 2) = true -> (q == 2 * inject_Z (Qfloor (q / 2)))%Q.
Proof.
  intros H. apply Qeq_bool_eq in H. unfold qmod in H.
  assert (X : (q == q - 2 * inject_Z (Qfloor (q / 2)) + 2 * inject_Z (Qfloor (q / 2)))%Q) by ring.
  rewrite H in X. rewrite X at 1. ring.
Qed.

Lemma sec_to_tan_sound t t' : is_cls_squared Sec t = true -> sec_to_tan fk t = Ok t' -> W t -> good rho t t'.
Proof.
  intros C H Wt. destruct t as [| | | | | | | | |b x| | |]; try discriminate.
  destruct b as [| | | | | | | | | | |f i|]; try discriminate.
  destruct x; try discriminate. simpl in C. apply andb_prop in C as [C1 C2]. apply trig_eqb_eq in C1 as ->.
  cbn [sec_to_tan] in H. apply bind_ok in H as (ta & Ht & H). apply bind_ok in H as (sq & Hs & H).
  apply bind_ok in H as (o & Ho & H). destruct Wt as ((Wi & Ti) & _ & Pd).
  apply (f_trig _ _ HF) in Ht as (T0 & T1 & T2); auto.
  apply (g_opow _ _ HG) in Hs as (_ & S1 & S2); simpl; auto.
  apply (g_add _ _ HG) in Ho as [O1 O2]; simpl; auto.
  apply (g_opow _ _ HG) in H as (_ & R1 & R2); simpl; auto. split; auto.
  set (z := Qfloor (q / 2)) in *.
  assert (Hq : Q2R q = 2 * IZR z).
  { rewrite (Qeq_eqR _ _ (qmod2_even q C2)), Q2R_mult, Q2R_inject. f_equal. unfold Q2R; simpl; field. }
  rewrite R2. simpl. rewrite Q2R_inject, Hq.
  simpl in Ti, T2. set (v := V i) in *.
  assert (E : V o = / cos v * / cos v).
  { rewrite O2, S2, T2. simpl. rewrite Q2R_1. replace (Q2R 2) with (IZR 2) by (unfold Q2R; simpl; field).
    rewrite rpow_int by (right; lia). simpl. 
    pose proof (sin2_cos2 v) as SC. unfold Rsqr in SC. field_simplify; auto.
    rewrite <- SC at 1. field. auto. }
  rewrite E. replace (2 * IZR z) with (IZR (2 * z)) by (rewrite mult_IZR; auto).
  assert (N : / cos v <> 0) by now apply Rinv_neq_0_compat.
  rewrite !rpow_int by (left; auto). rewrite powerRZ_mult_distr by auto.
  rewrite <- powerRZ_add by auto. f_equal. lia.
Qed.


Theorem sectan_sound n e e' : sectan fk n e = Ok (PNew e') -> W e -> good rho e e'.
Proof.
  unfold sectan. intros H We. destruct e as [| | | | | | |ts| | | | |]; try discriminate. cbv zeta in H.
  apply wd_sum in We.
  set (p := is_class_squared Sec) in *. set (q := is_class_squared Tan) in *.
  set (secs := filter p ts) in *. set (tans := filter (fun t => negb (p t) && q t) ts) in *.
  set (others := filter (fun t => negb (p t) && negb (q t)) ts) in *.
  assert (H' : (news <- mapM (fun s =>
            w <- replace_factory fk (fun t => Ok (is_cls_squared Sec t)) (sec_to_tan fk) s;;
            b <- expandable fk w;;
            w' <- (if b : bool then expandE fk n w else Ok s);;
            match w' with ESum us => Ok us | _ => Raise AssertionError end) secs;;
          r <- k_sum fk (tans ++ List.concat news ++ others);;
          match r with ESum _ => Raise TypeError | _ => Ok (PNew r) end) = Ok (PNew e')).
  { destruct secs; [discriminate|]. destruct tans; [discriminate|]. exact H. }
  clear H. apply bind_ok in H' as (news & Hn & H). apply bind_ok in H as (r & Hr & H).
  assert (Er : r = e') by (destruct r; try discriminate; injection H as <-; auto). subst r. clear H.
  assert (FW : forall f, Forall W (filter f ts)).
  { intros f. clear -We. induction We as [|t l Ht _ IH]; simpl; auto. destruct (f t); auto. }
  apply (mapM_rel _ W (fun s us => Forall W us /\ Rsum (map V us) = V s)) in Hn; [| |apply FW].
  2:{ intros s us Hs Ws. apply bind_ok in Hs as (w & Hw & Hs). apply bind_ok in Hs as (b & _ & Hs).
      apply bind_ok in Hs as (w' & Hw' & Hs). destruct w' as [| | | | | | |us'| | | | |]; try discriminate. injection Hs as <-.
      assert (GG : good rho s (ESum us')).
      { destruct b.
        - apply replace_factory_sound in Hw as [A1 A2]; auto.
          + apply (expandE_sound rho fk HF) in Hw' as [B1 B2]; auto. split; auto. congruence.
          + intros t t' Ht. injection Ht as Ht. now apply sec_to_tan_sound.
        - injection Hw' as <-. split; auto. }
      destruct GG as [G1 G2]. apply wd_sum in G1. split; auto. }
  assert (N : Forall W (List.concat news) /\ Rsum (map V (List.concat news)) = Rsum (map V secs)).
  { clear -Hn. induction Hn as [|s us l l' [A B] _ [IH1 IH2]]; simpl; auto. split; [now apply Forall_app|].
    now rewrite map_app, Rsum_app, IH2, B. }
  destruct N as [N1 N2]. apply (g_sum _ _ HG) in Hr as [R1 R2].
  - split; auto. rewrite R2, !map_app, !Rsum_app, N2. simpl. unfold secs, tans, others. clear.
    induction ts as [|t ts IH]; simpl; [ring|]. rewrite <- IH. destruct (p t), (q t); simpl; ring.
  - apply Forall_app. split; [apply FW|]. apply Forall_app. split; [auto|apply FW].
Qed.
End SimpSound.
