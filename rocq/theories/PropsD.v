(** * PropsD: the simplifier and the pattern matcher (C42-C44, C46, C53-C59).

    Same reading guide as PropsC.v: [GF dom c n] is the monitored code, [PF c m] the plain code,
    [right_at rho dom] says that the nodes accepted by the oracle are defined at [rho].  The monitor
    additionally stops where the matcher would record a wrong wildcard value or use a term twice, where
    product_to_sum would drop factors, where the sin/cos pairing of the Pythagorean rule is
    inconsistent, and where expand_logs meets a logarithm to a base other than e; each of these stops
    corresponds to a defect of the plain code proved below ([.._refuted]). *)
From Coquelicot Require Import Coquelicot.
From Verif Require Import Base Expr Kernel Mono Funcs FMono Calc Sem RealLemmas Sound SoundPow Atoms Agree Oracle
  FSound CalcSound Combi Expand ExpandSound Factor Regex Simp Pts Match TrigSimp PropsA PropsC.
Local Open Scope R_scope.

Section Main.
Context (c : cfg) (HX : fpow_exact (fpow c)) (dom : expr -> bool) (n m : nat) (Hn : (n <= m)%nat).
Notation gf := (GF dom c n).
Notation pf := (PF c m).
Let L : fle gf pf := GF_le dom c n m Hn.
Let S rho : right_at rho dom -> FSound rho gf := GF_sound dom c n rho HX.

(** ** C53: simplify *)
Theorem c53_simplify d rho e e' : right_at rho dom -> wd rho e ->
  simplifyE gf d e = Ok e' ->
  simplifyE pf d e = Ok e' /\ wd rho e' /\ ev rho e' = ev rho e.
Proof.
  intros R W H. split.
  - eapply rle_ok; [apply simplifyE_mono; [exact L|reflexivity]|exact H].
  - eapply (simplifyE_sound rho gf (S _ R)); eauto.
Qed.
(** trig_simplify and pythagorean_simplification *)
Theorem c53_trig_simplify d rho e e' h : right_at rho dom -> wd rho e ->
  trig_simplify gf d e = Ok (e', h) ->
  trig_simplify pf d e = Ok (e', h) /\ wd rho e' /\ ev rho e' = ev rho e.
Proof.
  intros R W H. split.
  - eapply rle_ok; [apply trig_simplify_mono; [exact L|reflexivity]|exact H].
  - eapply (trig_simplify_sound rho gf (S _ R)); eauto.
Qed.
Theorem c53_pythagorean rho e e' : right_at rho dom -> wd rho e ->
  pythagorean_simplification gf e = Ok e' ->
  pythagorean_simplification pf e = Ok e' /\ wd rho e' /\ ev rho e' = ev rho e.
Proof.
  intros R W H. split.
  - eapply rle_ok; [apply pythagorean_simplification_mono; exact L|exact H].
  - eapply (pythagorean_simplification_sound rho gf (S _ R)); eauto.
Qed.

(** ** C42: product_to_sum *)
Theorem c42_product_to_sum_unit d rho e e' : right_at rho dom -> wd rho e ->
  product_to_sum_unit gf d e = Ok (Some e') ->
  product_to_sum_unit pf d e = Ok (Some e') /\ wd rho e' /\ ev rho e' = ev rho e.
Proof.
  intros R W H. split.
  - eapply rle_ok; [apply product_to_sum_unit_mono; [exact L|reflexivity]|exact H].
  - eapply (product_to_sum_unit_sound rho gf (S _ R)); eauto.
Qed.
(** the two-factor identities: the listed terms add up to a*b*m *)
Theorem c42_two_factors rho a b k l : right_at rho dom -> wd rho a -> wd rho b -> wd rho k ->
  perform_on_terms gf a b k = Ok (Some l) ->
  perform_on_terms pf a b k = Ok (Some l) /\ Forall (wd rho) l /\
  ev rho (ESum l) = ev rho a * ev rho b * ev rho k.
Proof.
  intros R Wa Wb Wk H. split.
  - eapply rle_ok; [apply perform_on_terms_mono; exact L|exact H].
  - destruct (perform_sound rho gf (S _ R) _ _ _ _ H) as [A B]; auto.
Qed.

(** ** C43, first part: negative powers of trig functions become powers of the reciprocal function *)
Theorem c43_reciprocate rho e e' : right_at rho dom -> wd rho e ->
  reciprocate_trigs gf e = Ok e' ->
  reciprocate_trigs pf e = Ok e' /\ wd rho e' /\ ev rho e' = ev rho e.
Proof.
  intros R W H. split.
  - eapply rle_ok; [apply reciprocate_trigs_mono; exact L|exact H].
  - eapply (reciprocate_trigs_sound rho gf (S _ R)); eauto.
Qed.

(** ** C44: expand_logs *)
Theorem c44_expand_logs d rho e e' : right_at rho dom -> wd rho e ->
  expand_logs gf d e = Ok e' ->
  expand_logs pf d e = Ok e' /\ wd rho e' /\ ev rho e' = ev rho e.
Proof.
  intros R W H. split.
  - eapply rle_ok; [apply expand_logs_mono; [exact L|reflexivity]|exact H].
  - eapply (expand_logs_sound rho gf (S _ R)); eauto.
Qed.

(** ** C46: rewrite_as_one_fraction, with or without constant denominators *)
Theorem c46_one_fraction icd rho e e' : right_at rho dom -> wd rho e ->
  one_fraction gf icd e = Ok (Some e') ->
  one_fraction pf icd e = Ok (Some e') /\ wd rho e' /\ ev rho e' = ev rho e.
Proof.
  intros R W H. split.
  - eapply rle_ok; [apply one_fraction_mono; exact L|exact H].
  - eapply (one_fraction_sound rho gf (S _ R)); eauto.
Qed.

(** ** C54: a reported match is a match.  [d] gives each wildcard one value; replacing the wildcards
    of the query by these values gives an expression of the value of [e]. *)
Theorem c54_eq rho q e d : right_at rho dom -> wd rho e ->
  eq_plain gf q e = Ok (Some d) ->
  eq_plain pf q e = Ok (Some d) /\ NoDup (map fst d) /\
  forall s, (forall k x, In (k, x) d -> s k = x) -> ev rho e = ev rho (inst s q).
Proof.
  intros R W H. split; [|split].
  - eapply rle_ok; [apply eq_plain_mono; exact L|exact H].
  - eapply eq_plain_keys; eauto.
  - eapply (eq_plain_sound rho gf (S _ R)); eauto.
Qed.
(** the same up to a sum: the query and the rest add up to the expression *)
Theorem c54_eq_up_to_sum rho qs es d rest : right_at rho dom -> wd rho (ESum es) ->
  eq_sum gf (ESum qs) (ESum es) = Ok (Some (d, rest)) ->
  eq_sum pf (ESum qs) (ESum es) = Ok (Some (d, rest)) /\ NoDup (map fst d) /\ wd rho rest /\
  forall s, (forall k x, In (k, x) d -> s k = x) -> ev rho (ESum es) = ev rho (inst s (ESum qs)) + ev rho rest.
Proof.
  intros R W H. split; [|split].
  - eapply rle_ok; [apply eq_sum_mono; exact L|exact H].
  - eapply eq_sum_keys; eauto.
  - destruct (eq_sum_sound rho gf (S _ R) _ _ _ _ H W) as (A & _ & B). auto.
Qed.
End Main.

(** *** Instances *)
Definition sz : expr := ESym "z".
Definition sqt (f : trig) (i : expr) : expr := EPow (ETrig f i) (ERat 2).
(** Syntactically positive for 0 < x < pi/2 and y > 0. *)
Fixpoint posb (t : expr) : bool :=
  match t with
  | ERat q => qgt0 q
  | EPi | EE => true
  | ESym s => String.eqb s "x" || String.eqb s "y"
  | ETrig (Sin | Cos | Tan | Csc | Sec | Cot) (ESym s) => String.eqb s "x"
  | ESum (t :: ts) => posb t && forallb posb ts
  | EProd ts => forallb posb ts
  | EPow b _ => posb b
  | _ => false
  end.
Definition nzb (t : expr) : bool :=
  posb t || match t with EProd (ERat q :: ts) => negb (qis0 q) && forallb posb ts | _ => false end.
Definition dom_xy (t : expr) : bool :=
  match t with
  | EPow b (ERat q) => posb b || (qisint q && nzb b)
  | EPow b _ => posb b
  | ELog i EE => posb i
  | ETrig (Tan | Csc | Sec | Cot) (ESym s) => String.eqb s "x"
  | _ => false
  end.
Definition first_quadrant (rho : env) : Prop := 0 < rho "x"%string < PI / 2 /\ 0 < rho "y"%string.
Lemma posb_rp rho t : first_quadrant rho -> posb t = true -> rp rho t.
Proof.
  intros [[X1 X2] Y].
  assert (SX : 0 < sin (rho "x"%string)) by (apply sin_gt_0; lra).
  assert (CX : 0 < cos (rho "x"%string)) by (apply cos_gt_0; lra).
  induction t as [q| | | | |s| |ts IH|ts IH|b x IHb IHx|i b IHi IHb|f i IHi|i IHi] using expr_ind'; try discriminate; intros H.
  - apply rp_ERat. now apply qgt0_true.
  - apply rp_unfold. split; auto. apply PI_RGT_0.
  - apply rp_unfold. split; auto. apply exp_pos.
  - simpl in H. apply rp_unfold. split; auto. apply orb_prop in H as [H|H]; apply String.eqb_eq in H as ->; auto.
  - apply rp_unfold. split; auto. destruct ts as [|t ts]; [discriminate|]. cbn [posb] in H. apply andb_prop in H as [H1 H2].
    inversion IH as [|? ? A B]; subst. apply A, rp_gt0 in H1. cbn [ev map Rsum fold_right].
    assert (0 <= Rsum (map (ev rho) ts)); [|unfold Rsum in *; lra].
    clear -B H2. induction B as [|u ts Hu _ IH]; simpl; [lra|]. simpl in H2. apply andb_prop in H2 as [C D].
    apply Hu, rp_gt0 in C. specialize (IH D). unfold Rsum in *. lra.
  - cbn [posb] in H. assert (P : Forall (rp rho) ts).
    { clear -IH H. induction IH; auto. simpl in H. apply andb_prop in H as [A B]. auto. }
    apply rp_unfold. split; auto. cbn [ev]. apply Rprod_pos. clear -P. induction P; simpl; auto using rp_gt0.
  - simpl in H. specialize (IHb H). apply rp_unfold. split; auto. cbn [ev]. apply rpow_gt0. now apply rp_gt0.
  - apply rp_unfold. split; auto. cbn [posb] in H. destruct f; try discriminate; destruct i; try discriminate;
      apply String.eqb_eq in H as ->; simpl; auto;
      try (apply Rinv_0_lt_compat; auto); apply Rdiv_lt_0_compat; auto.
Qed.
Lemma nzb_ne rho t : first_quadrant rho -> nzb t = true -> ev rho t <> 0.
Proof.
  intros FQ H. unfold nzb in H. apply orb_prop in H as [H|H].
  - apply posb_rp with (rho := rho) in H; auto. apply rp_gt0 in H. lra.
  - destruct t as [| | | | | | | |ts| | | |]; try discriminate. destruct ts as [|[] ts]; try discriminate.
    apply andb_prop in H as [A B]. apply negb_true_iff in A. apply qis0_false in A.
    cbn [ev map Rprod fold_right]. assert (0 < Rprod (map (ev rho) ts)); [|unfold Rprod in *; nra].
    apply Rprod_pos. clear -B FQ. induction ts as [|t ts IH]; simpl in *; auto. apply andb_prop in B as [C D].
    constructor; auto. apply rp_gt0. now apply posb_rp.
Qed.
Lemma dom_xy_right rho : first_quadrant rho -> right_at rho dom_xy.
Proof.
  intros FQ t Ht. destruct t as [| | | | | | | | |b x|i b|f i|]; try discriminate; cbn [dom_xy] in Ht.
  - destruct x; try (right; apply posb_rp; now auto). apply orb_prop in Ht as [Ht|Ht]; [right; now apply posb_rp|].
    apply andb_prop in Ht as [A B]. left. exists q. repeat split; auto. left. now apply nzb_ne.
  - destruct b; try discriminate. split; [now apply posb_rp|]. split; [apply exp_pos|apply exp1_ne1].
  - destruct FQ as [[X1 X2] Y].
    assert (SX : 0 < sin (rho "x"%string)) by (apply sin_gt_0; lra).
    assert (CX : 0 < cos (rho "x"%string)) by (apply cos_gt_0; lra).
    destruct f; try discriminate; destruct i; try discriminate; apply String.eqb_eq in Ht as ->; simpl; lra.
Qed.
Example first_quadrant_ex : first_quadrant (rx 1).
Proof. unfold first_quadrant, rx. pose proof PI2_1. lra. Qed.

Lemma quad_tdom rho f : first_quadrant rho -> is_inverse f = false -> tdom f (rho "x"%string).
Proof.
  intros FQ Hf. assert (A : dom_xy (ETrig f sx) = true \/ (f = Sin \/ f = Cos)) by (destruct f; auto; discriminate).
  destruct A as [A|[->| ->]]; [|exact I..]. now apply (dom_xy_right rho FQ (ETrig f sx)) in A as [A _].
Qed.
Ltac wdx FQ := unfold sqt;
  repeat match goal with
  | |- Forall _ (_ :: _) => constructor
  | |- Forall _ [] => constructor
  | |- wd _ (ESum _) => apply wd_sum
  | |- wd _ (EProd _) => apply wd_prod; split; [|unfold one_const; simpl; lia]
  | |- wd _ (EPow _ _) => split; [|split]
  | |- wd _ (ELog _ _) => split; [|split; [|split]]
  | |- wd _ (ETrig _ _) => split
  | |- pdom _ ?b ?x => first [ right; apply posb_rp; [exact FQ|reflexivity] 
       | left; eexists; split; [reflexivity|]; split; [reflexivity|]; right; discriminate ]
  | |- rp _ _ => apply posb_rp; [exact FQ|reflexivity]
  | |- wd _ _ => exact I
  | |- tdom _ _ => first [exact I | eapply quad_tdom; [exact FQ|reflexivity]]
  | |- 0 < ev _ EE /\ _ => split; [apply exp_pos|apply exp1_ne1]
  end.
(** sec^4 x - tan^4 x - 2 tan^2 x simplifies to 1 *)
Example c53_ex1 :
  let e := ESum [EPow (ETrig Sec sx) (ERat 4); EProd [ERat (-1); EPow (ETrig Tan sx) (ERat 4)]; EProd [ERat (-2); sqt Tan sx]] in
  simplifyE (GF dom_xy exact_cfg 12) 12 e = Ok (ERat 1) /\
  forall rho, first_quadrant rho -> right_at rho dom_xy /\ wd rho e.
Proof.
  split; [vm_compute; reflexivity|]. intros rho FQ. split; [now apply dom_xy_right|]. wdx FQ.
Qed.
(** x + log(x sec^3 x) + y - y sin^2 x: one run that uses the logarithm and the Pythagorean rules *)
Example c53_ex2 :
  let e := ESum [sx; ELog (EProd [sx; EPow (ETrig Sec sx) (ERat 3)]) EE; EProd [ERat (-1); sy; sqt Sin sx]; sy] in
  (exists e', simplifyE (GF dom_xy exact_cfg 12) 12 e = Ok e' /\ e' <> e) /\
  forall rho, first_quadrant rho -> right_at rho dom_xy /\ wd rho e.
Proof.
  split; [eexists; split; [vm_compute; reflexivity|discriminate]|]. intros rho FQ. split; [now apply dom_xy_right|]. wdx FQ.
Qed.
Example c53_ex3 : pythagorean_simplification (GF dom_xy exact_cfg 12)
    (ESum [EProd [sy; sqt Sin sx]; EProd [sy; sqt Cos sx]; sx]) = Ok (ESum [sy; sx]).
Proof. vm_compute. reflexivity. Qed.
Example c42_ex : exists e', product_to_sum_unit (GF (fun _ => false) exact_cfg 12) 12
    (EProd [ERat 3; ETrig Sin sx; EPow (ETrig Sin sy) (ERat 3)]) = Ok (Some e') /\ forall rho, right_at rho (fun _ => false).
Proof. eexists. split; [vm_compute; reflexivity|]. intros rho t H. discriminate. Qed.
Example c43_ex : reciprocate_trigs (GF dom_xy exact_cfg 9) (EProd [sy; EPow (ETrig Sin sx) (ERat (-3))])
  = Ok (EProd [sy; EPow (ETrig Csc sx) (ERat 3)]).
Proof. vm_compute. reflexivity. Qed.
Example c44_ex : exists e', expand_logs (GF dom_xy exact_cfg 9) 9 (ELog (EProd [ERat 3; sx; EPow (ETrig Sin sx) (ERat 2)]) EE) = Ok e' /\
  e' = ESum [ELog (EPow (ETrig Sin sx) (ERat 2)) EE; ELog sx EE; ELog (ERat 3) EE].
Proof. eexists. split; [vm_compute; reflexivity|reflexivity]. Qed.
Example c46_ex : exists e', one_fraction (GF dom_xy exact_cfg 9) true (ESum [EPow sx (ERat (-1)); EProd [ERat (1#2); sy]]) = Ok (Some e') /\
  e' = EProd [ERat (1#2); EPow sx (ERat (-1)); ESum [EProd [sx; sy]; ERat 2]].
Proof. eexists. split; [vm_compute; reflexivity|reflexivity]. Qed.
Example c54_ex : 
  eq_plain (GF dom_xy exact_cfg 12) (EProd [EAny "factor_k"; ETrig Sec (EAny "k"); ETrig Sin (EAny "k")]) (EProd [sy; ETrig Sec sx; ETrig Sin sx])
   = Ok (Some [("k", sx); ("factor_k", sy)])%string /\
  eq_sum (GF dom_xy exact_cfg 12) (q_minus Sin) (ESum [sx; EProd [ERat (-1); sy; sqt Sin sx]; sy])
   = Ok (Some ([("k", sx); ("factor_k", sy)], sx))%string.
Proof. split; vm_compute; reflexivity. Qed.

(** The queries used by [pythagorean] and [combine_trigs] are the ones the code builds: factor * condition,
    expanded (simplify.py:114-122, 222-227 through Eq.__init__, regex.py:186-200). *)
Section Queries.
Let fk := PF exact_cfg 12.
Definition built (cond : res expr) : res expr :=
  q <- cond;; p <- op_mul fk (EAny fkey) q;; expand_if fk 12 p.
Let sqa f := t <- k_trig fk f (EAny akey);; op_pow fk t (ERat 2).
Let prod2 f g := a <- k_trig fk f (EAny akey);; b <- k_trig fk g (EAny akey);; op_mul fk a b.
Theorem queries_as_built :
  map (fun p => Ok (fst p)) pyth_identities =
    [built (s <- sqa Tan;; op_add fk (ERat 1) s); built (s <- sqa Sin;; op_sub fk (ERat 1) s);
     built (s <- sqa Cos;; op_sub fk (ERat 1) s); built (s <- sqa Sec;; op_sub fk s (ERat 1));
     built (s <- sqa Cot;; op_add fk (ERat 1) s); built (s <- sqa Csc;; op_sub fk s (ERat 1))] /\
  map (fun p => Ok (fst p)) comb_identities = [built (prod2 Sin Sec); built (prod2 Cos Csc)].
Proof. split; vm_compute; reflexivity. Qed.
End Queries.

(** ** C44, second half: the base is dropped *)
Theorem c44_base_refuted b :
  expand_logs (PF exact_cfg 9) 9 (ELog (EProd [sx; sy]) b) = Ok (ESum [ELog sy EE; ELog sx EE]) /\
  forall rho, 0 < rho "x"%string -> 0 < rho "y"%string -> 0 < ev rho b -> ev rho b <> 1 ->
    ev rho (ESum [ELog sy EE; ELog sx EE]) = ln (ev rho b) * ev rho (ELog (EProd [sx; sy]) b).
Proof.
  split; [vm_compute; reflexivity|]. intros rho X Y B B1. simpl. rewrite ln_exp, !Rmult_1_r, ln_mult by auto.
  assert (ln (ev rho b) <> 0).
  { intros E. apply B1. apply ln_inv; auto; [lra|]. now rewrite E, ln_1. }
  field. auto.
Qed.

(** ** C55: the Pythagorean rule pairs the wrong terms *)
(** cos(b)^2 sin(a)^2 + cos(a)^2 cos(b)^2 = cos(b)^2, but simplify and pythagorean_simplification return
    cos(b)^2 sin(a)^2 + cos(b)^2. *)
Theorem c55_pairing_refuted :
  let a := sx in let b := sy in
  let e := ESum [EProd [sqt Cos b; sqt Sin a]; EProd [sqt Cos a; sqt Cos b]] in
  let e' := ESum [EProd [sqt Cos b; sqt Sin a]; sqt Cos b] in
  k_sum (PF exact_cfg 12) [EProd [sqt Cos b; sqt Sin a]; EProd [sqt Cos a; sqt Cos b]] = Ok e /\
  simplifyE (PF exact_cfg 12) 12 e = Ok e' /\ pythagorean_simplification (PF exact_cfg 12) e = Ok e' /\
  forall rho, ev rho e' - ev rho e = (cos (rho "y"%string) * sin (rho "x"%string)) ^ 2.
Proof.
  repeat split; try (vm_compute; reflexivity). intros rho. simpl. rewrite !rpow_2.
  pose proof (sin2_cos2 (rho "x"%string)) as S. unfold Rsqr in S.
  set (sa := sin _) in *. set (ca := cos (rho "x"%string)) in *. set (cb := cos _).
  replace (ca * ca) with (1 - sa * sa) by lra. ring.
Qed.

(** ** C56: the matcher reports matches that are none *)
(** eq(x, 2*any*x) reports any = 2 although any = 1/2 solves it. *)
Theorem c56_value_refuted :
  eq_plain (PF exact_cfg 9) (EProd [ERat 2; EAny "k"; sx]) sx = Ok (Some [("k", ERat 2)])%string /\
  forall rho, ev rho (inst (fun _ => ERat 2) (EProd [ERat 2; EAny "k"; sx])) = 4 * ev rho sx.
Proof.
  split; [vm_compute; reflexivity|]. intros rho. simpl. unfold Q2R; simpl. field.
Qed.
(** eq(x + y, any1 + any2, up_to_sum=True) uses y for both wildcards and leaves x over. *)
Theorem c56_term_used_twice_refuted :
  eq_sum (PF exact_cfg 9) (ESum [EAny "k"; EAny "l"]) (ESum [sy; sx]) = Ok (Some ([("k", sy); ("l", sy)], sx))%string /\
  forall rho s, (forall k x, In (k, x) [("k", sy); ("l", sy)]%string -> s k = x) ->
    ev rho (inst s (ESum [EAny "k"; EAny "l"])) + ev rho sx = ev rho (ESum [sy; sx]) + rho "y"%string.
Proof.
  split; [vm_compute; reflexivity|]. intros rho s H. simpl.
  rewrite (H "k"%string sy), (H "l"%string sy) by (simpl; tauto). simpl. ring.
Qed.

(** ** C57: product_to_sum drops factors *)
(** sin(x) cos(y)^2 sin(z)^2: the factor sin(x) is lost; with exactly one power, AssertionError. *)
Theorem c57_dropped_factor_refuted :
  let e := EProd [ETrig Sin sx; sqt Cos sy; sqt Sin (ESym "z")] in
  exists e', product_to_sum_unit (PF exact_cfg 12) 12 e = Ok (Some e') /\ contains "x" e' = false /\
  (forall rho, rho "x"%string = 0 -> ev rho e = 0) /\
  exists rho, rho "x"%string = 0 /\ ev rho e' = 1.
Proof.
  eexists. split; [vm_compute; reflexivity|]. split; [reflexivity|]. split.
  - intros rho E. cbn [ev map Rprod fold_right tev]. change (ev rho sx) with (rho "x"%string). rewrite E, sin_0. ring.
  - exists (fun v => if String.eqb v "z" then PI / 2 else 0). split; [reflexivity|].
    cbn [ev map Rsum Rprod fold_right tev].
    change (if ("z" =? "z")%string then PI / 2 else 0) with (PI / 2).
    change (if ("y" =? "z")%string then PI / 2 else 0) with 0.
    replace (Q2R 2 * (PI / 2 * 1) + (Q2R 2 * (0 * 1) + 0)) with PI by (unfold Q2R; simpl; field).
    replace (Q2R 2 * (0 * 1) + (Q2R (-2) * (PI / 2 * 1) + 0)) with (- PI) by (unfold Q2R; simpl; field).
    replace (Q2R 2 * (0 * 1)) with 0 by ring.
    replace (Q2R 2 * (PI / 2 * 1)) with PI by (unfold Q2R; simpl; field).
    rewrite cos_neg, cos_PI, cos_0. unfold Q2R. simpl. field.
Qed.
Theorem c57_one_power_raises :
  product_to_sum_unit (PF exact_cfg 12) 12 (EProd [ETrig Sin sx; ETrig Sin sz; sqt Cos sy]) = Raise AssertionError.
Proof. vm_compute. reflexivity. Qed.

(** ** C58: the sec/tan rule *)
(** Whatever the constructors do: on a sum with an even power of sec and an even power of tan among its
    terms the rule never answers "no change" and never returns a sum: it collapses to a single term or raises. *)
Theorem c58_sectan (fk : fkern) n ts r :
  existsb (is_class_squared Sec) ts = true ->
  existsb (fun t => negb (is_class_squared Sec t) && is_class_squared Tan t) ts = true ->
  sectan fk n (ESum ts) = Ok r -> exists e, r = PNew e /\ is_sum e = false.
Proof.
  intros HS HT H. unfold sectan in H. cbv zeta in H.
  assert (A : forall p (l : list expr), existsb p l = true -> filter p l <> []).
  { intros p l HE E. apply existsb_exists in HE as (x & I & Px). assert (J : In x (filter p l)) by (apply filter_In; auto).
    rewrite E in J. destruct J. }
  apply A in HS, HT. destruct (filter (is_class_squared Sec) ts) as [|a l]; [congruence|].
  destruct (filter (fun t => negb _ && is_class_squared Tan t) ts) as [|b l']; [congruence|].
  apply bind_ok in H as (news & _ & H). apply bind_ok in H as (e & _ & H).
  destruct e; try discriminate; injection H as <-; eexists; split; reflexivity.
Qed.
(** simplify(sec(x)^2 + tan(x)^2) raises AssertionError, simplify(sec(x)^4 - tan(x)^4) TypeError *)
Theorem c58_simplify_raises_refuted :
  simplifyE (PF exact_cfg 12) 12 (ESum [sqt Sec sx; sqt Tan sx]) = Raise AssertionError /\
  simplifyE (PF exact_cfg 12) 12 (ESum [EPow (ETrig Sec sx) (ERat 4); EProd [ERat (-1); EPow (ETrig Tan sx) (ERat 4)]])
    = Raise TypeError.
Proof. split; vm_compute; reflexivity. Qed.

(** ** C59: without trig functions simplify returns its argument or something with fewer symbols *)
Theorem c59_never_longer (fk : fkern) n e e' :
  (forall x, expand_if fk n e = Ok x -> has_trig x = false) ->
  simplifyE fk n e = Ok e' -> e' = e \/ (count_symbols e' < count_symbols e)%nat.
Proof.
  intros HT H. unfold simplifyE in H. apply bind_ok in H as (e1 & H1 & H). rewrite (HT _ H1) in H. cbn [bind] in H.
  apply bind_ok in H as (e3 & H3 & H). destruct (is_simpler e3 e) eqn:E; injection H as <-; auto.
  right. unfold is_simpler in E. now apply Nat.ltb_lt.
Qed.
Example c59_ex : exists x, expand_if (PF exact_cfg 12) 12 (EProd [sx; ESum [sy; EProd [ERat (-1); sy; EPow sx (ERat (-1))]; EPow sx (ERat (-1))]]) = Ok x /\ has_trig x = false.
Proof. eexists. split; [vm_compute; reflexivity|reflexivity]. Qed.
