(** * Table: the integral table (src/simpy/integral_table.py), and what "antiderivative" means. *)
From Coquelicot Require Import Coquelicot.
From Verif Require Export Poly.
Open Scope R_scope.

(** ** Specification: antiderivatives on a box.

    A box [B] restricts each symbol independently: [B s t] says that symbol [s] may have value [t].
    The statement "F is an antiderivative of f with respect to v" is: at every assignment in the box,
    [F] is defined and its derivative in direction [v] is [f]. *)
Definition box := string -> R -> Prop.
Definition inB (B : box) (rho : env) : Prop := forall s, B s (rho s).
Definition openv (B : box) (v : string) : Prop := forall t, B v t -> locally t (B v).
Definition AntiOn (B : box) (v : string) (f : env -> R) (F : expr) : Prop :=
  forall rho, inB B rho -> wd rho F /\ is_derive (fun t => ev (upd rho v t) F) (rho v) (f rho).
(** the library preserves values on the box *)
Definition BSound (B : box) (fk : fkern) : Prop := forall rho, inB B rho -> FSound rho fk.
Definition wdB (B : box) (e : expr) : Prop := forall rho, inB B rho -> wd rho e.

(** ** Model *)
Section Table.
Context (fk : fkern).

(** STANDARD_TRIG_INTEGRALS, integral_table.py:10-16, with [x = Symbol("x")] (line 8). *)
Definition std_trig : list (expr * (expr -> res expr)) :=
  let x := ESym "x" in
  [ (ETrig Sin x, fun v => c <- k_trig fk Cos v;; op_neg fk c);
    (ETrig Cos x, fun v => k_trig fk Sin v);
    (EPow (ETrig Sec x) (ERat 2), fun v => k_trig fk Tan v);
    (ETrig Sec x, fun v => t <- k_trig fk Tan v;; s <- k_trig fk Sec v;; a <- op_add fk t s;; k_log fk a EE) ].

(** the loop integral_table.py:35-37 *)
Fixpoint table_loop (v : string) (e : expr) (l : list (expr * (expr -> res expr))) : res (option expr) :=
  match l with
  | [] => Ok None
  | (q, f) :: r => if eq_with_var v "x" e q then a <- f (ESym v);; Ok (Some a) else table_loop v e r
  end.

(** check_integral_table, integral_table.py:19-39 *)
Definition table (v : string) (e : expr) : res (option expr) :=
  if negb (contains v e) then r <- op_mul fk e (ESym v);; Ok (Some r)
  else
    match e with
    | EPow b x =>
        if is_var v b && negb (contains v x) then
          if isq x (-1) then
            a <- op_abs fk b;; r <- k_log fk a EE;; Ok (Some r)
          else
            n1 <- op_add fk x (ERat 1);; d <- op_div fk (ERat 1) n1;;
            n2 <- op_add fk x (ERat 1);; p <- k_pow fk (ESym v) n2;; r <- op_mul fk d p;; Ok (Some r)
        else if is_var v x && negb (contains v b) then
          l <- k_log fk b EE;; d <- op_div fk (ERat 1) l;; r <- op_mul fk d e;; Ok (Some r)
        else table_loop v e std_trig
    | ESym _ => p <- k_pow fk (ESym v) (ERat 2);; r <- op_mul fk (ERat (1 # 2)) p;; Ok (Some r)
    | _ => table_loop v e std_trig
    end.
End Table.

Lemma table_mono f1 f2 v e : fle f1 f2 -> rle (table f1 v e) (table f2 v e).
Proof.
  intros HF. unfold table. destruct (negb _); [mono|].
  assert (G : rle (table_loop v e (std_trig f1)) (table_loop v e (std_trig f2))).
  { unfold std_trig. cbn [table_loop]. mono. }
  destruct e; mono.
Qed.
#[export] Hint Resolve table_mono : mono.

(** ** Soundness *)
Lemma rho_upd rho v : upd rho v (rho v) = rho.
Proof. apply FunctionalExtensionality.functional_extensionality. apply upd_same. Qed.
Lemma upd_upd_eq rho v t s : upd (upd rho v t) v s = upd rho v s.
Proof. apply FunctionalExtensionality.functional_extensionality. intros x. apply upd_upd. Qed.

Section Box.
Context (B : box) (v : string) (Ho : openv B v).

Lemma inB_upd rho t : inB B rho -> B v t -> inB B (upd rho v t).
Proof. intros H Ht s. unfold upd. destruct (String.eqb_spec s v); subst; auto. Qed.
Lemma inB_near rho : inB B rho -> locally (rho v) (fun t => inB B (upd rho v t)).
Proof.
  intros H. eapply filter_imp; [|apply (Ho (rho v)), H]. simpl. intros t Ht. now apply inB_upd.
Qed.

(** A function equal to [F]'s value on the box has the same derivative. *)
Lemma box_ext rho (g : env -> R) e l : inB B rho -> (forall r, inB B r -> ev r e = g r) ->
  is_derive (fun t => g (upd rho v t)) (rho v) l -> is_derive (fun t => ev (upd rho v t) e) (rho v) l.
Proof.
  intros H E D. eapply is_derive_ext_loc; [|exact D].
  eapply filter_imp; [|apply (inB_near rho H)]. simpl. intros t Ht. symmetry. now apply E.
Qed.

Lemma AntiOn_ext f F F' : AntiOn B v f F -> (forall r, inB B r -> wd r F' /\ ev r F' = ev r F) -> AntiOn B v f F'.
Proof.
  intros H E rho Hr. split; [now apply E|]. destruct (H rho Hr) as [_ D].
  apply (box_ext rho (fun r => ev r F)); auto. intros r Hb. now apply E.
Qed.
Lemma AntiOn_fext f g F : AntiOn B v f F -> (forall r, inB B r -> f r = g r) -> AntiOn B v g F.
Proof. intros H E rho Hr. destruct (H rho Hr) as [W D]. split; auto. now rewrite <- E. Qed.

Lemma notin_const rho e : contains v e = false -> is_derive (fun t => ev (upd rho v t) e) (rho v) 0.
Proof.
  intros C. apply (is_derive_ext (fun _ => ev rho e)).
  - intros t. now rewrite ev_upd_notin.
  - apply (is_derive_const (ev rho e)).
Qed.
Lemma var_derive rho : is_derive (fun t => ev (upd rho v t) (ESym v)) (rho v) 1.
Proof.
  apply (is_derive_ext (fun t => t)); [intros t; simpl; now rewrite upd_eq|]. apply (is_derive_id (rho v)).
Qed.

(** diff on the box: the derivative of a defined expression. *)
Theorem diff_box fk n e e' : BSound B fk -> diffE fk n v e = Ok e' -> wdB B e ->
  forall rho, inB B rho -> wd rho e' /\ is_derive (fun t => ev (upd rho v t) e) (rho v) (ev rho e').
Proof.
  intros HS H W rho Hr.
  destruct (inB_near rho Hr) as [eps He].
  set (a := rho v - eps). set (b := rho v + eps).
  assert (Hin : forall t, a < t < b -> inB B (upd rho v t)).
  { intros t Ht. apply He. unfold ball; simpl; unfold AbsRing_ball, abs, minus, plus, opp; simpl.
    unfold a, b in Ht. apply Rabs_def1; lra. }
  assert (Hv : a < rho v < b) by (unfold a, b; pose proof (cond_pos eps); lra).
  destruct (diffE_sound fk rho v a b (fun t Ht => HS _ (Hin t Ht)) n e e' H (fun t Ht => W _ (Hin t Ht)) (rho v) Hv)
    as [A D].
  rewrite rho_upd in A, D. auto.
Qed.
End Box.

Lemma is_var_eq v e : is_var v e = true -> e = ESym v.
Proof. destruct e; try discriminate. simpl. intros H. apply String.eqb_eq in H. now subst. Qed.

Lemma ln_abs_derive x : x <> 0 -> is_derive (fun t => ln (Rabs t)) x (/ x).
Proof.
  intros H. destruct (Rlt_dec 0 x) as [P|P].
  - apply is_derive_ext_loc with (f := ln).
    + eapply filter_imp; [|apply (open_gt 0 x P)]. simpl. intros t Ht. rewrite Rabs_right; auto; lra.
    + now apply is_derive_ln.
  - assert (N : x < 0) by lra.
    apply is_derive_ext_loc with (f := fun t => ln (- t)).
    + eapply filter_imp; [|apply (open_lt 0 x N)]. simpl. intros t Ht. rewrite Rabs_left; auto.
    + eapply is_derive_eq; [apply (is_derive_comp' ln (fun t => - t) x (/ (- x)) (-1))|].
      * apply is_derive_ln; lra.
      * auto_derive; auto.
      * field; lra.
Qed.

Lemma id_derive x : is_derive (fun t : R => t) x 1.
Proof. apply (is_derive_id x). Qed.

(** x^n, n constant *)
Lemma pow_anti rho v n : pdom rho (ESym v) n -> ev rho n + 1 <> 0 ->
  is_derive (fun t => rpow t (ev rho n + 1)) (rho v) ((ev rho n + 1) * rpow (rho v) (ev rho n)).
Proof.
  intros P N. destruct (Rlt_dec 0 (rho v)) as [Hp|Hn].
  - eapply is_derive_eq; [apply (pow_base_derive (fun t => t)); [apply id_derive|exact Hp]|].
    replace (ev rho n + 1 - 1) with (ev rho n) by ring. ring.
  - destruct P as [(q & -> & Hi & Hq)|P]; [|apply rp_gt0 in P; simpl in P; contradiction].
    cbn [ev] in *. rewrite (qisint_Q2R _ Hi).
    replace (IZR (numer q) + 1) with (IZR (numer q + 1)) by (rewrite plus_IZR; ring).
    eapply is_derive_eq; [apply (pow_int_derive (fun t => t) (rho v) (numer q + 1)); [apply id_derive|]|].
    + destruct Hq as [Hq|Hq]; auto. right. apply Q2R_nonneg in Hq. rewrite (qisint_Q2R _ Hi) in Hq.
      apply le_IZR in Hq. lia.
    + rewrite plus_IZR. replace (IZR (numer q) + 1 - 1) with (IZR (numer q)) by ring. ring.
Qed.

Section TableSound.
Context (B : box) (v : string) (Ho : openv B v) (fk : fkern) (HS : BSound B fk).

Lemma table_loop_rows e F l : table_loop v e l = Ok (Some F) ->
  exists q f, In (q, f) l /\ eq_with_var v "x" e q = true /\ f (ESym v) = Ok F.
Proof.
  induction l as [|[q f] l IH]; cbn [table_loop]; intros H; [discriminate|].
  destruct (eq_with_var v "x" e q) eqn:E.
  - apply bind_ok in H as (a & Ha & H). injection H as <-. exists q, f. simpl; auto.
  - apply IH in H as (q' & f' & A & C). exists q', f'. simpl; auto.
Qed.

Lemma eqv_trig f e : eq_with_var v "x" e (ETrig f (ESym "x")) = true -> contains v e = true -> e = ETrig f (ESym v).
Proof.
  destruct e; cbn; try discriminate. destruct (trig_eqb f0 f) eqn:E; cbn; [|discriminate].
  destruct e; cbn; try discriminate. apply trig_eqb_eq in E. subst.
  intros _ H. apply String.eqb_eq in H. now subst.
Qed.

Theorem std_sound e F : table_loop v e (std_trig fk) = Ok (Some F) -> contains v e = true -> wdB B e ->
  AntiOn B v (fun r => ev r e) F.
Proof.
  intros H C W. apply table_loop_rows in H as (q & f & Hin & E & H).
  unfold std_trig in Hin. cbn [In] in Hin.
  assert (Ws : forall r, wd r (ESym v)) by (intros; exact I).
  intros rho Hr. pose proof (HS rho Hr) as HF. pose proof (f_k _ _ HF) as HG.
  destruct Hin as [Hin|[Hin|[Hin|[Hin|[]]]]]; injection Hin as <- <-.
  - apply eqv_trig in E; auto. subst e. apply bind_ok in H as (c & Hc & H).
    destruct (f_trig _ _ HF _ _ _ Hc I) as (_ & A & _). split; [now apply (g_neg _ _ HG) in H|].
    apply (box_ext B v Ho rho (fun r => - cos (r v))); auto.
    + intros r Hb. destruct (f_trig _ _ (HS r Hb) _ _ _ Hc I) as (_ & A1 & A2).
      apply (g_neg _ _ (HS r Hb)) in H as [_ N]; auto. rewrite N, A2. reflexivity.
    + apply is_derive_ext with (f := fun t => - cos t); [intros t; now rewrite upd_eq|]. cbn [ev tev].
      auto_derive; auto. ring.
  - apply eqv_trig in E; auto. subst e.
    destruct (f_trig _ _ HF _ _ _ H I) as (_ & A & _). split; auto.
    apply (box_ext B v Ho rho (fun r => sin (r v))); auto.
    + intros r Hb. destruct (f_trig _ _ (HS r Hb) _ _ _ H I) as (_ & A1 & A2). now rewrite A2.
    + apply is_derive_ext with (f := fun t => sin t); [intros t; now rewrite upd_eq|]. cbn [ev tev].
      auto_derive; auto. ring.
  - assert (e = EPow (ETrig Sec (ESym v)) (ERat 2)).
    { apply eq_with_var_rename in E. destruct e; cbn in E; try discriminate; [destruct (String.eqb _ _); discriminate|]. injection E as E1 E2.
      destruct e2; cbn in E2; try discriminate; [|destruct (String.eqb _ _); discriminate]. injection E2 as <-.
      f_equal. apply eqv_trig; [apply eq_with_var_rename; exact E1|]. cbn in C. now rewrite orb_false_r in C. }
    subst e. destruct (f_trig _ _ HF _ _ _ H I) as (T & A & _). split; auto.
    apply (box_ext B v Ho rho (fun r => sin (r v) / cos (r v))); auto.
    + intros r Hb. destruct (f_trig _ _ (HS r Hb) _ _ _ H I) as (_ & A1 & A2). now rewrite A2.
    + apply is_derive_ext with (f := fun t => sin t / cos t); [intros t; now rewrite upd_eq|]. cbn [ev tev tdom] in *.
      rewrite rpow_2. auto_derive; auto. field_simplify; auto. f_equal.
      pose proof (sin2_cos2 (rho v)) as S. unfold Rsqr in S. simpl. lra.
  - apply eqv_trig in E; auto. subst e.
    apply bind_ok in H as (t & Ht & H). apply bind_ok in H as (s & Hs & H). apply bind_ok in H as (a & Ha & H).
    assert (G : forall r, inB B r -> cos (r v) <> 0 /\ wd r F /\ 0 < sin (r v) / cos (r v) + / cos (r v) /\
       ev r F = ln (sin (r v) / cos (r v) + / cos (r v))).
    { intros r Hb. pose proof (HS r Hb) as HFr.
      destruct (f_trig _ _ HFr _ _ _ Ht I) as (T1 & T2 & T3). destruct (f_trig _ _ HFr _ _ _ Hs I) as (S1 & S2 & S3).
      apply (g_add _ _ HFr) in Ha as [A1 A2]; auto.
      destruct (f_log _ _ HFr _ _ _ H A1 I) as ((L0 & _) & L1 & L2). apply rp_gt0 in L0.
      rewrite A2, T3, S3 in L0, L2. cbn [ev tev tdom] in *. rewrite ln_exp, Rdiv_1 in L2. auto. }
    destruct (G rho Hr) as (N & WF & P & _). split; auto.
    apply (box_ext B v Ho rho (fun r => ln (sin (r v) / cos (r v) + / cos (r v)))); auto.
    + intros r Hb. now apply G.
    + apply is_derive_ext with (f := fun t => ln (sin t / cos t + / cos t)); [intros u; now rewrite upd_eq|]. cbn [ev tev].
      pose proof (sin2_cos2 (rho v)) as S. unfold Rsqr in S.
      assert (Q : sin (rho v) + 1 <> 0).
      { intros Z. apply Rlt_not_eq in P. apply P. replace (sin (rho v)) with (-1) by lra. field; auto. }
      assert (D : is_derive (fun t => sin t / cos t + / cos t) (rho v) ((1 + sin (rho v)) / (cos (rho v) * cos (rho v)))).
      { auto_derive; auto. apply (Rmult_eq_reg_r (cos (rho v) * cos (rho v))); [|now apply Rmult_integral_contrapositive_currified].
        field_simplify; auto. simpl. lra. }
      eapply is_derive_eq; [apply (is_derive_comp' ln (fun t => sin t / cos t + / cos t)); [now apply is_derive_ln|exact D]|].
      field. split; auto.
Qed.

Theorem table_sound e F : table fk v e = Ok (Some F) -> wdB B e -> AntiOn B v (fun r => ev r e) F.
Proof.
  intros H W. unfold table in H. destruct (contains v e) eqn:C; cbn [negb] in H.
  2:{ apply bind_ok in H as (r & Hm & H). injection H as <-. intros rho Hr. pose proof (HS rho Hr) as HF.
      destruct (g_mul _ _ HF _ _ _ Hm (W _ Hr) I) as [A _]. split; auto.
      apply (box_ext B v Ho rho (fun r => ev r e * ev r (ESym v))); auto.
      - intros r0 Hb. now apply (g_mul _ _ (HS r0 Hb)) in Hm as [_ M]; [| now apply W |].
      - eapply is_derive_eq; [apply (is_derive_mult (fun t => ev (upd rho v t) e) (fun t => ev (upd rho v t) (ESym v)));
          [now apply notin_const|apply var_derive|intros; apply Rmult_comm]|].
        unfold plus, mult; simpl. rewrite rho_upd. ring. }
  assert (ST : table_loop v e (std_trig fk) = Ok (Some F) -> AntiOn B v (fun r => ev r e) F)
    by (intros H'; now apply std_sound).
  destruct e as [| | | | |s| | | |b x| | |]; auto.
  - (* the variable *)
    simpl in C. apply String.eqb_eq in C. subst s. clear ST.
    apply bind_ok in H as (p & Hp & H). apply bind_ok in H as (r & Hm & H). injection H as <-.
    assert (G : forall r0, inB B r0 -> wd r0 r /\ ev r0 r = / 2 * (r0 v * r0 v)).
    { intros r0 Hb. destruct (g_pow _ _ (HS r0 Hb) _ _ _ Hp I I) as (_ & P1 & P2).
      apply (g_mul _ _ (HS r0 Hb)) in Hm as [M1 M2]; [|exact I|auto]. split; auto. rewrite M2, P2. cbn [ev].
      rewrite rpow_2. unfold Q2R; simpl. lra. }
    intros rho Hr. split; [now apply G|]. apply (box_ext B v Ho rho (fun r0 => / 2 * (r0 v * r0 v))); auto.
    + intros r0 Hb. now apply G.
    + apply is_derive_ext with (f := fun t => / 2 * (t * t)); [intros t; now rewrite upd_eq|]. simpl. auto_derive; auto. field.
  - (* a power *)
    destruct (is_var v b && negb (contains v x)) eqn:E1.
    + clear ST. apply andb_prop in E1 as [Eb Ex]. apply is_var_eq in Eb. subst b. apply negb_true_iff in Ex.
      destruct (isq x (-1)) eqn:E2.
      * apply bind_ok in H as (a & Ha & H). apply bind_ok in H as (r & Hl & H). injection H as <-.
        assert (G : forall r0, inB B r0 -> r0 v <> 0 /\ wd r0 r /\ ev r0 r = ln (Rabs (r0 v))).
        { intros r0 Hb. destruct (g_oabs _ _ (HS r0 Hb) _ _ Ha I) as [A1 A2].
          destruct (f_log _ _ (HS r0 Hb) _ _ _ Hl A1 I) as ((L0 & _) & L1 & L2). apply rp_gt0 in L0.
          rewrite A2 in L0, L2. cbn [ev] in *. rewrite ln_exp, Rdiv_1 in L2. repeat split; auto.
          intros Z. rewrite Z, Rabs_R0 in L0. lra. }
        intros rho Hr. destruct (G rho Hr) as (N & Wr & _). split; auto.
        apply (box_ext B v Ho rho (fun r0 => ln (Rabs (r0 v)))); auto; [intros r0 Hb; now apply G|].
        apply is_derive_ext with (f := fun t => ln (Rabs t)); [intros t; now rewrite upd_eq|].
        eapply is_derive_eq; [now apply ln_abs_derive|]. cbn [ev]. rewrite (isq_ev rho _ _ E2).
        replace (Q2R (-1)) with (IZR (-1)) by (unfold Q2R; simpl; lra).
        rewrite rpow_int by auto. simpl. now rewrite Rmult_1_r.
      * apply bind_ok in H as (n1 & Hn1 & H). apply bind_ok in H as (d & Hd & H). apply bind_ok in H as (n2 & Hn2 & H).
        rewrite Hn1 in Hn2. injection Hn2 as <-.
        apply bind_ok in H as (p & Hp & H). apply bind_ok in H as (r & Hm & H). injection H as <-.
        assert (Wx : forall r0, inB B r0 -> wd r0 x) by (intros r0 Hb; now apply W in Hb as (_ & ? & _)).
        assert (G : forall r0, inB B r0 -> ev r0 x + 1 <> 0 /\ wd r0 r /\ ev r0 r = / (ev r0 x + 1) * rpow (r0 v) (ev r0 x + 1)).
        { intros r0 Hb. destruct (g_add _ _ (HS r0 Hb) _ _ _ Hn1 (Wx _ Hb) I) as [N1 N2].
          change (ev r0 (ERat 1)) with (Q2R 1) in N2. rewrite Q2R_1 in N2.
          destruct (g_div _ _ (HS r0 Hb) _ _ _ Hd I N1) as (D0 & D1 & D2).
          destruct (g_pow _ _ (HS r0 Hb) _ _ _ Hp I N1) as (_ & P1 & P2).
          destruct (g_mul _ _ (HS r0 Hb) _ _ _ Hm D1 P1) as [M1 M2]. rewrite N2 in *.
          repeat split; auto. rewrite M2, D2, P2. cbn [ev]. rewrite Q2R_1. unfold Rdiv. ring. }
        intros rho Hr. destruct (G rho Hr) as (N & Wr & _). split; auto.
        apply (box_ext B v Ho rho (fun r0 => / (ev r0 x + 1) * rpow (r0 v) (ev r0 x + 1))); auto; [intros r0 Hb; now apply G|].
        apply is_derive_ext with (f := fun t => scal (/ (ev rho x + 1)) (rpow t (ev rho x + 1))).
        { intros t. rewrite upd_eq, ev_upd_notin by auto. reflexivity. }
        eapply is_derive_eq; [apply is_derive_scal, pow_anti; auto|].
        -- now apply W in Hr as (_ & _ & ?).
        -- unfold scal; simpl; unfold mult; simpl. field; auto.
    + destruct (is_var v x && negb (contains v b)) eqn:E2; auto. clear ST E1.
      apply andb_prop in E2 as [Ex Eb]. apply is_var_eq in Ex. subst x. apply negb_true_iff in Eb.
      apply bind_ok in H as (l & Hl & H). apply bind_ok in H as (d & Hd & H). apply bind_ok in H as (r & Hm & H). injection H as <-.
      assert (G : forall r0, inB B r0 -> 0 < ev r0 b /\ ln (ev r0 b) <> 0 /\ wd r0 r /\ ev r0 r = / ln (ev r0 b) * rpow (ev r0 b) (r0 v)).
      { intros r0 Hb. pose proof (W r0 Hb) as (Wb & _ & _).
        destruct (f_log _ _ (HS r0 Hb) _ _ _ Hl Wb I) as ((L0 & _) & L1 & L2). apply rp_gt0 in L0.
        cbn [ev] in L2. rewrite ln_exp, Rdiv_1 in L2.
        destruct (g_div _ _ (HS r0 Hb) _ _ _ Hd I L1) as (D0 & D1 & D2).
        destruct (g_mul _ _ (HS r0 Hb) _ _ _ Hm D1 (W r0 Hb)) as [M1 M2]. rewrite L2 in *.
        repeat split; auto. rewrite M2, D2. cbn [ev]. rewrite Q2R_1. unfold Rdiv. ring. }
      intros rho Hr. destruct (G rho Hr) as (P & N & Wr & _). split; auto.
      apply (box_ext B v Ho rho (fun r0 => / ln (ev r0 b) * rpow (ev r0 b) (r0 v))); auto; [intros r0 Hb; now apply G|].
      apply is_derive_ext with (f := fun t => scal (/ ln (ev rho b)) (Rpower (ev rho b) t)).
      { intros t. rewrite upd_eq, ev_upd_notin by auto. now rewrite rpow_pos. }
      eapply is_derive_eq; [apply is_derive_scal, is_derive_Rpower_exp|].
      unfold scal; simpl; unfold mult; simpl. rewrite rpow_pos by auto. field; auto.
Qed.
End TableSound.
