(** * PropsE: the integration transforms (C24, C25, C27, C28, C30-C34, C43).

    Reading guide.  [GF dom c n] and [PF c m] are the monitored and the plain code, as in PropsC.v.
    A box [B] gives each symbol a set of values; [inB B rho] says that [rho] respects it, [wdB B e]
    that [e] is defined on the box, and [AntiOn B v f F] (Table.v) that the expression [F] is defined
    on the box and its derivative in direction [v] is [f] there.  The oracle [dom] is right on the
    box; the oracle [rng] only accepts substitutions that map the box into the range of the new
    variable.  Interval.v proves that both can be computed for any box of open intervals.

    The monitor additionally stops where TrigUSub2 would use the wrong sign of a square root (C28), where
    a quotient entry of the long division would be overwritten, and where to_const_polynomial would
    lose a factor (C31). *)
From Coquelicot Require Import Coquelicot.
From Verif Require Import Base Expr Kernel Mono Funcs FMono Calc Sem RealLemmas Sound SoundPow Atoms Agree Oracle
  FSound CalcSound Combi Expand ExpandSound Factor Regex Simp Pts Match TrigSimp Poly PolyQ Table Trans TransMono TransSound
  Interval PropsA PropsC PropsD.
Local Open Scope R_scope.

Section Main.
Context (c : cfg) (HX : fpow_exact (fpow c)) (dom : expr -> bool) (rng : string -> expr -> bool)
  (B : box) (HB : forall rho, inB B rho -> right_at rho dom) (HR : rng_ok B rng)
  (n m : nat) (Hn : (n <= m)%nat).
Notation gf := (GF dom c n).
Notation pf := (PF c m).
Let L : fle gf pf := GF_le dom c n m Hn.
Let S : BSound B gf := fun rho Hr => GF_sound dom c n rho HX (HB rho Hr).
(** the plain code has no monitor and hence no range test *)
Notation anyr := (fun (_ : string) (_ : expr) => true).
Let LR : forall y u, rng y u = true -> anyr y u = true := fun _ _ _ => eq_refl.

(** ** C24: the integral table *)
Theorem c24_table v e F : openv B v -> wdB B e ->
  table gf v e = Ok (Some F) ->
  table pf v e = Ok (Some F) /\ AntiOn B v (fun r => ev r e) F.
Proof.
  intros Ho We H. split.
  - eapply rle_ok; [apply table_mono; exact L|exact H].
  - exact (table_sound B v Ho gf S e F H We).
Qed.

(** ** C25: linearity *)
(** PullConstant: the integrand is k * p with k free of the variable; writing back k * (solution for p)
    gives a solution. *)
Theorem c25_pull_constant v e k p : openv B v -> wdB B e ->
  pull_const gf v e = Ok (Some (k, p)) ->
  pull_const pf v e = Ok (Some (k, p)) /\ contains v k = false /\ wdB B p /\
  (forall rho, inB B rho -> ev rho e = ev rho k * ev rho p) /\
  forall F F', AntiOn B v (fun r => ev r p) F -> op_mul gf k F = Ok F' ->
    op_mul pf k F = Ok F' /\ AntiOn B v (fun r => ev r e) F'.
Proof.
  intros Ho We H.
  assert (G : forall rho, inB B rho -> contains v k = false /\ wd rho k /\ wd rho p /\ ev rho e = ev rho k * ev rho p).
  { intros rho Hr. exact (pull_const_sound rho gf (S rho Hr) v e k p H (We rho Hr)). }
  assert (C : contains v k = false).
  { clear -H. unfold pull_const in H. destruct e as [| | | | | | | |l| | | |]; try discriminate. revert H. generalize (@nil expr) as pre.
    induction l as [|t l IH]; intros pre H; cbn [pull_go] in H; [discriminate|].
    destruct (contains v t) eqn:C; cbn [negb] in H; [eauto|]. apply bind_ok in H as (q & _ & H). now injection H as <- _. }
  split; [eapply rle_ok; [eapply pull_const_mono; exact L|exact H]|]. split; [exact C|].
  split; [intros rho Hr; now apply G|]. split; [intros rho Hr; now apply G|].
  intros F F' HA HM. split; [eapply rle_ok; [apply op_mul_mono; exact L|exact HM]|].
  apply (AntiOn_fext B v (fun r => ev r k * ev r p)); [|intros r Hr; symmetry; now apply G].
  eapply (AntiOn_scale B v Ho gf S); eauto. intros rho Hr. now apply G.
Qed.
(** Additivity: adding the solutions of all summands *)
Theorem c25_additivity v ts Fs F : openv B v ->
  Forall2 (fun t F => AntiOn B v (fun r => ev r t) F) ts Fs ->
  k_sum gf Fs = Ok F ->
  k_sum pf Fs = Ok F /\ AntiOn B v (fun r => ev r (ESum ts)) F.
Proof.
  intros Ho HA H. split; [eapply rle_ok; [apply L|exact H]|].
  apply (AntiOn_fext B v (fun r => Rsum (map (fun f => f r) (map (fun t r => ev r t) ts)))).
  - eapply (AntiOn_sum B v Ho gf S); eauto. clear -HA. induction HA; constructor; auto.
  - intros r _. cbn [ev]. now rewrite map_map.
Qed.

(** ** C27: substitutions.  [u] is substituted by the new variable [y]; [F] is a solution of the new
    integrand [g]; writing back F with y replaced by u gives a solution of the old integrand. *)
Definition writes_back (v y : string) (e u g : expr) : Prop :=
  forall F F', AntiOn B y (fun r => ev r g) F -> contains v F = false ->
    replaceE gf F (ESym y) u = Ok F' ->
    replaceE pf F (ESym y) u = Ok F' /\ AntiOn B v (fun r => ev r e) F'.
Lemma wb v y e u g : openv B v -> USub B v y u (fun r => ev r e) (fun r => ev r g) -> writes_back v y e u g.
Proof.
  intros Ho U F F' HA Hv H. split; [eapply rle_ok; [apply replaceE_mono; exact L|exact H]|].
  eapply (usub_back B v Ho gf S); eauto.
Qed.
Context (NE : exists rho, inB B rho).

Theorem c27_linear d d' v y e u g : (d <= d')%nat -> openv B v -> wdB B e ->
  linear_usub gf rng d v y e = Ok (Some (u, g)) ->
  linear_usub pf anyr d' v y e = Ok (Some (u, g)) /\ wdB B g /\ writes_back v y e u g.
Proof.
  intros Hd Ho We H. split; [eapply rle_ok; [apply linear_usub_mono; [exact L|exact LR|exact Hd]|exact H]|].
  destruct (linear_usub_sound B v Ho gf S rng HR y NE d e u g H We) as [A U]. split; [exact A|now apply wb].
Qed.
Theorem c27_polynomial d d' v y e u g : (d <= d')%nat -> openv B v -> wdB B e ->
  poly_usub gf rng d v y e = Ok (Some (u, g)) ->
  poly_usub pf anyr d' v y e = Ok (Some (u, g)) /\ wdB B g /\ writes_back v y e u g.
Proof.
  intros Hd Ho We H. split; [eapply rle_ok; [apply poly_usub_mono; [exact L|exact LR|exact Hd]|exact H]|].
  destruct (poly_usub_sound B v Ho gf S rng HR y NE d e u g H We) as [A U]. split; [exact A|now apply wb].
Qed.
Theorem c27_generic d d' v y e u g : (d <= d')%nat -> openv B v -> wdB B e ->
  generic_usub gf rng d v y e = Ok (Some (u, g)) ->
  generic_usub pf anyr d' v y e = Ok (Some (u, g)) /\ wdB B g /\ writes_back v y e u g.
Proof.
  intros Hd Ho We H. split; [eapply rle_ok; [apply generic_usub_mono; [exact L|exact LR|exact Hd]|exact H]|].
  destruct (generic_usub_sound B v Ho gf S rng HR y NE d e u g H We) as [A U]. split; [exact A|now apply wb].
Qed.
Theorem c27_inverse_trig v y e u g : openv B v -> wdB B e ->
  inv_usub gf rng v y e = Ok (Some (u, g)) ->
  inv_usub pf anyr v y e = Ok (Some (u, g)) /\ wdB B g /\ writes_back v y e u g.
Proof.
  intros Ho We H. split; [eapply rle_ok; [apply inv_usub_mono; [exact L|exact LR]|exact H]|].
  destruct (inv_usub_sound B v Ho gf S rng HR y NE e u g H We) as [A U]. split; [exact A|now apply wb].
Qed.
(** ** C28: the same for TrigUSub2, where the monitor has checked the sign of cos resp. sin *)
Theorem c28_trig v y e u g : openv B v -> wdB B e ->
  trig_usub gf rng v y e = Ok (Some (u, g)) ->
  trig_usub pf anyr v y e = Ok (Some (u, g)) /\ wdB B g /\ writes_back v y e u g.
Proof.
  intros Ho We H. split; [eapply rle_ok; [apply trig_usub_mono; [exact L|exact LR]|exact H]|].
  destruct (trig_usub_sound B v gf S rng HR y NE e u g H We) as [A U]. split; [exact A|now apply wb].
Qed.
End Main.

(** ** Rewriting transforms: the new integrand has the value of the old one at every assignment at which
    the old one is defined and the oracle is right. *)
Section Rewriting.
Context (c : cfg) (HX : fpow_exact (fpow c)) (dom : expr -> bool) (n m : nat) (Hn : (n <= m)%nat).
Notation gf := (GF dom c n).
Notation pf := (PF c m).
Let L : fle gf pf := GF_le dom c n m Hn.
Let S rho : right_at rho dom -> FSound rho gf := GF_sound dom c n rho HX.

(** ** C30: PolynomialDivision as a whole *)
Theorem c30_transform d d' v rho e e' : (d <= d')%nat -> right_at rho dom -> wd rho e ->
  poly_division gf d v e = Ok (Some e') ->
  poly_division pf d' v e = Ok (Some e') /\ wd rho e' /\ ev rho e' = ev rho e.
Proof.
  intros Hd R W H. split; [eapply rle_ok; [apply poly_division_mono; [exact L|exact Hd]|exact H]|].
  exact (poly_division_sound rho gf (S _ R) v d e e' H W).
Qed.
(** ** C31: coefficients *)
Theorem c31_to_const_polynomial d d' v rho e l : (d <= d')%nat -> right_at rho dom -> wd rho e ->
  to_const_polynomial gf d v e = Ok l ->
  to_const_polynomial pf d' v e = Ok l /\ Forall (wd rho) l /\
  ev rho e = fold_right (fun a r => ev rho a + rho v * r) 0 l.
Proof.
  intros Hd R W H. split; [eapply rle_ok; [apply to_const_polynomial_mono; [exact L|exact Hd]|exact H]|].
  destruct (to_const_polynomial_sound rho gf (S _ R) v d e l H W) as [A E]. split; auto.
Qed.
Theorem c31_polynomial_to_expr v rho l e : right_at rho dom -> Forall (wd rho) l ->
  polynomial_to_expr gf v l = Ok e ->
  polynomial_to_expr pf v l = Ok e /\ wd rho e /\
  ev rho e = fold_right (fun a r => ev rho a + rho v * r) 0 l.
Proof.
  intros R W H. split; [eapply rle_ok; [apply polynomial_to_expr_mono; exact L|exact H]|].
  exact (polynomial_to_expr_sound rho gf (S _ R) v l e H W).
Qed.
(** ** C33: PartialFractions *)
Theorem c33_partial_fractions d d' v rho e e' : (d <= d')%nat -> right_at rho dom -> wd rho e ->
  partial_fractions gf d v e = Ok (Some e') ->
  partial_fractions pf d' v e = Ok (Some e') /\ wd rho e' /\ ev rho e' = ev rho e.
Proof.
  intros Hd R W H. split; [eapply rle_ok; [apply partial_fractions_mono; [exact L|exact Hd]|exact H]|].
  exact (partial_fractions_sound rho gf (S _ R) v d e e' H W).
Qed.
(** ** C34: CompleteTheSquare *)
Theorem c34_complete_square d d' v rho e e' : (d <= d')%nat -> right_at rho dom -> wd rho e ->
  complete_square gf d v e = Ok (Some e') ->
  complete_square pf d' v e = Ok (Some e') /\ wd rho e' /\ ev rho e' = ev rho e.
Proof.
  intros Hd R W H. split; [eapply rle_ok; [apply complete_square_mono; [exact L|exact Hd]|exact H]|].
  exact (complete_square_sound rho gf (S _ R) v d e e' H W).
Qed.
(** ** C43: RewriteTrig and RewritePythagorean *)
Theorem c43_rewrite_trig rho e l : right_at rho dom -> wd rho e ->
  rewrite_trig gf e = Ok (Some l) ->
  rewrite_trig pf e = Ok (Some l) /\ Forall (fun e' => wd rho e' /\ ev rho e' = ev rho e) l.
Proof.
  intros R W H. split; [eapply rle_ok; [apply rewrite_trig_mono; exact L|exact H]|].
  exact (rewrite_trig_sound rho gf (S _ R) e l H W).
Qed.
Theorem c43_rewrite_pythagorean rho e e' : right_at rho dom -> wd rho e ->
  rewrite_pyth gf e = Ok (Some e') ->
  rewrite_pyth pf e = Ok (Some e') /\ wd rho e' /\ ev rho e' = ev rho e.
Proof.
  intros R W H. split; [eapply rle_ok; [apply rewrite_pyth_mono; exact L|exact H]|].
  exact (rewrite_pyth_sound rho gf (S _ R) e e' H W).
Qed.
End Rewriting.

(** ** Plain-code theorems on rational coefficients (no monitor) *)
Lemma PF_plain c m : k_strict (PF c m) = false.
Proof. destruct m; reflexivity. Qed.

(** C30: the division loop terminates within [length num + 1] rounds for every divisor with non-zero
    leading coefficient; [qpoly l x] is the value of the polynomial (constant term first). *)
Theorem c30_division c m n num den : den <> [] -> ~ (last den 0 == 0)%Q -> (List.length num < n)%nat ->
  exists rem quot,
    pd_loop (PF c m) n (map ERat num) (map ERat den) (repeat (ERat 0) (List.length num - List.length den + 1))
      = Ok (map ERat rem, map ERat quot) /\
    (List.length rem < List.length den)%nat /\
    forall x, (qpoly num x == qpoly quot x * qpoly den x + qpoly rem x)%Q.
Proof. exact (division_lift (PF c m) (PF_plain c m) num den n). Qed.
(** x^4 - 2 divided by x^2 + 1 *)
Example c30_ex : let num := [-2; 0; 0; 0; 1]%Q in let den := [1; 0; 1]%Q in
  den <> [] /\ ~ (last den 0 == 0)%Q /\
  pd_loop (PF exact_cfg 9) 6 (map ERat num) (map ERat den) (repeat (ERat 0) 3) = Ok ([ERat (-1)], [ERat (-1); ERat 0; ERat 1]).
Proof. split; [discriminate|]. split; [intros H; discriminate|]. vm_compute. reflexivity. Qed.

(** C31: rid_ending_zeros removes exactly the trailing zeros of any coefficient list *)
Theorem c31_rid_ending_zeros l : exists zs, l = rid_zeros l ++ zs /\ Forall (fun z => isq z 0 = true) zs /\
  forall z, lastM (rid_zeros l) = Ok z -> isq z 0 = false.
Proof. exact (rid_zeros_split l). Qed.
Example c31_rid_ex : rid_zeros [ERat 0; sy; ERat 0; ERat 0] = [ERat 0; sy].
Proof. reflexivity. Qed.

(** C32: invert on rational 2x2 matrices: None exactly for determinant 0, else the two-sided inverse *)
Theorem c32_invert c m a b p q :
  ((a * q - b * p == 0)%Q /\ invert (PF c m) [[ERat a; ERat b]; [ERat p; ERat q]] = Ok None) \/
  (~ (a * q - b * p == 0)%Q /\ exists e f g h : Q,
     invert (PF c m) [[ERat a; ERat b]; [ERat p; ERat q]] = Ok (Some [[ERat e; ERat f]; [ERat g; ERat h]]) /\
     (e * a + f * p == 1 /\ e * b + f * q == 0 /\ g * a + h * p == 0 /\ g * b + h * q == 1 /\
      a * e + b * g == 1 /\ a * f + b * h == 0 /\ p * e + q * g == 0 /\ p * f + q * h == 1)%Q).
Proof. exact (invert_lift (PF c m) a b p q). Qed.
(** every other square size: NotImplementedError; a non-square (but rectangular) matrix: AssertionError *)
Theorem c32_other_sizes c m (M : list (list expr)) (k : nat) : M <> [] ->
  Forall (fun r => List.length r = k) M ->
  (k = List.length M -> k <> 2%nat -> invert (PF c m) M = Raise NotImplementedError) /\
  (k <> List.length M -> invert (PF c m) M = Raise AssertionError).
Proof.
  intros Hm HF. destruct M as [|r M]; [congruence|]. inversion HF as [|? ? Hr HF']; subst. clear Hm.
  assert (A : forallb (fun x => Nat.eqb (List.length x) (List.length r)) (r :: M) = true).
  { apply forallb_forall. intros x Hx. apply Nat.eqb_eq. rewrite Forall_forall in HF. symmetry. now rewrite (HF x Hx). }
  assert (G : forall X, (match r :: M with [[a; b]; [c0; d]] => False | _ => True end) ->
    (if negb (forallb (fun x => Nat.eqb (List.length x) (List.length r)) (r :: M)) then Raise ValueError
     else if Nat.eqb (List.length r) (List.length (r :: M)) then Raise NotImplementedError else Raise AssertionError) = X ->
    invert (PF c m) (r :: M) = X).
  { intros X NM <-. unfold invert. destruct r as [|a [|b [|]]]; auto. destruct M as [|[|u [|w [|]]] [|]]; auto. contradiction. }
  split.
  - intros E N. apply G.
    + destruct r as [|a [|b [|]]]; auto. cbn in N. congruence.
    + rewrite A. cbn [negb]. rewrite E, Nat.eqb_refl. reflexivity.
  - intros E. apply G.
    + destruct r as [|a [|b [|]]]; auto. destruct M as [|[|u [|w [|]]] [|]]; auto.
    + rewrite A. cbn [negb]. apply Nat.eqb_neq in E. now rewrite E.
Qed.
Example c32_ex : invert (PF exact_cfg 5) [[ERat 1; ERat 2]; [ERat 3; ERat 4]]
   = Ok (Some [[ERat (-2); ERat 1]; [ERat (3 # 2); ERat (-1 # 2)]]) /\
  invert (PF exact_cfg 5) [[ERat 1; ERat 2]; [ERat 2; ERat 4]] = Ok None /\
  invert (PF exact_cfg 5) [[ERat 1]] = Raise NotImplementedError /\
  invert (PF exact_cfg 5) [[ERat 1; ERat 2]] = Raise AssertionError.
Proof. repeat split; vm_compute; reflexivity. Qed.

(** ** The monitored runs exist: concrete boxes, with the computed oracles of Interval.v *)
(** 0 < x < 4/5 and 0 < y < 3/2; everything else is free *)
Definition bxy : ibox := cons ("x"%string, (Some 0%Q, Some (4 # 5)%Q)) (cons ("y"%string, (Some 0%Q, Some (3 # 2)%Q)) nil).
(** 0 < x < 4/5 and 0 < y < 1 *)
Definition bx1 : ibox := cons ("x"%string, (Some 0%Q, Some (4 # 5)%Q)) (cons ("y"%string, (Some 0%Q, Some 1%Q)) nil).
Definition half : env := fun _ => 1 / 2.
Lemma bx_facts bx : inB (box_of bx) half ->
  (forall rho, inB (box_of bx) rho -> right_at rho (ivdom bx)) /\ rng_ok (box_of bx) (ivrng bx) /\
  (forall v, openv (box_of bx) v) /\ exists rho, inB (box_of bx) rho.
Proof.
  intros H. split; [intros rho Hr; now apply ivdom_right|]. split; [apply ivrng_ok|]. split; [intros v; apply box_of_open|eauto].
Qed.
Lemma half_in bx : bx = bxy \/ bx = bx1 -> inB (box_of bx) half.
Proof.
  intros [->| ->] s; unfold box_of, bxy, bx1, half; cbn [bnds];
    (destruct (String.eqb s "x"); [|destruct (String.eqb s "y")]); cbn [fst snd]; unfold Q2R; simpl; lra.
Qed.
Notation gxy := (GF (ivdom bxy) exact_cfg 20).
Notation gx1 := (GF (ivdom bx1) exact_cfg 20).
Ltac certd := apply cert_wdB with (dom := ivdom bxy) + apply cert_wdB with (dom := ivdom bx1);
  [intros rho Hr; now apply ivdom_right|vm_compute; reflexivity].

Definition sqrt1mx2 := EPow (ESum [EProd [ERat (-1); EPow sx (ERat 2)]; ERat 1]) (ERat (1 # 2)).
Example c24_ex :
  table gxy "x" (ETrig Sec sx) = Ok (Some (ELog (ESum [ETrig Tan sx; ETrig Sec sx]) EE)) /\
  table gxy "x" (EPow sx (ERat (-1))) = Ok (Some (ELog (EAbs sx) EE)) /\
  table gxy "x" (EPow sx (ERat (1 # 2))) = Ok (Some (EProd [ERat (2 # 3); EPow sx (ERat (3 # 2))])) /\
  wdB (box_of bxy) (ETrig Sec sx) /\ wdB (box_of bxy) (EPow sx (ERat (1 # 2))) /\ inB (box_of bxy) half.
Proof.
  split; [vm_compute; reflexivity|]. split; [vm_compute; reflexivity|]. split; [vm_compute; reflexivity|].
  split; [certd|]. split; [certd|]. apply half_in; auto.
Qed.
Example c25_ex :
  let e := EProd [ERat 3; sy; ETrig Sin sx] in
  pull_const gxy "x" e = Ok (Some (ERat 3, EProd [sy; ETrig Sin sx])) /\ wdB (box_of bxy) e /\
  op_mul gxy (ERat 3) (EProd [ERat (-1); sy; ETrig Cos sx]) = Ok (EProd [ERat (-3); sy; ETrig Cos sx]).
Proof. split; [vm_compute; reflexivity|]. split; [certd|]. vm_compute. reflexivity. Qed.
Example c25_sum_ex : k_sum gxy [EProd [ERat (1 # 2); EPow sx (ERat 2)]; ETrig Sin sx] = Ok (ESum [EProd [ERat (1 # 2); EPow sx (ERat 2)]; ETrig Sin sx]).
Proof. vm_compute. reflexivity. Qed.
(** the substitution u = 2x + 3 in (2x+3)^5; u = x^2 in x cos(x^2); u = cos x in sin x cos^3 x; u = asin x in
    x sqrt(1-x^2) *)
Definition bfree : ibox := cons ("x"%string, (Some 0%Q, Some (4 # 5)%Q)) nil.
Lemma half_free : inB (box_of bfree) half.
Proof.
  intros s. unfold box_of, bfree, half. cbn [bnds]. destruct (String.eqb s "x"); cbn [fst snd]; unfold Q2R; simpl; lra.
Qed.
Example c27_linear_ex :
  linear_usub (GF (ivdom bfree) exact_cfg 20) (ivrng bfree) 20 "x" "y" (EPow (ESum [EProd [ERat 2; sx]; ERat 3]) (ERat 5))
    = Ok (Some (ESum [EProd [ERat 2; sx]; ERat 3], EProd [ERat (1 # 2); EPow sy (ERat 5)])) /\
  replaceE (GF (ivdom bfree) exact_cfg 20) (EProd [ERat (1 # 12); EPow sy (ERat 6)]) sy (ESum [EProd [ERat 2; sx]; ERat 3])
    = Ok (EProd [ERat (1 # 12); EPow (ESum [EProd [ERat 2; sx]; ERat 3]) (ERat 6)]).
Proof. split; vm_compute; reflexivity. Qed.
Example c27_ex :
  poly_usub gxy (ivrng bxy) 20 "x" "y" (EProd [sx; ETrig Cos (EPow sx (ERat 2))]) = Ok (Some (EPow sx (ERat 2), EProd [ERat (1 # 2); ETrig Cos sy])) /\
  generic_usub gxy (ivrng bxy) 20 "x" "y" (EProd [ETrig Sin sx; EPow (ETrig Cos sx) (ERat 3)]) = Ok (Some (ETrig Cos sx, EProd [ERat (-1); EPow sy (ERat 3)])) /\
  (exists g, inv_usub gxy (ivrng bxy) "x" "y" (EProd [sx; sqrt1mx2]) = Ok (Some (ETrig Asin sx, g))) /\
  wdB (box_of bxy) (EProd [sx; sqrt1mx2]).
Proof.
  split; [vm_compute; reflexivity|]. split; [vm_compute; reflexivity|]. split; [eexists; vm_compute; reflexivity|certd].
Qed.
Example c28_ex : exists g, trig_usub gx1 (ivrng bx1) "x" "y" (ETrig Sin sx) = Ok (Some (ETrig Sin sx, g)) /\
  exists g', trig_usub gx1 (ivrng bx1) "x" "y" (EPow (ETrig Cos sx) (ERat 2)) = Ok (Some (ETrig Cos sx, g')).
Proof. eexists. split; [vm_compute; reflexivity|]. eexists. vm_compute. reflexivity. Qed.
Example c30_33_34_43_ex :
  poly_division gxy 20 "x" (EProd [EPow sx (ERat 3); EPow (ESum [sx; ERat 1]) (ERat (-1))])
    = Ok (Some (ESum [EProd [ERat (-1); EPow (ESum [sx; ERat 1]) (ERat (-1))]; EPow sx (ERat 2); EProd [ERat (-1); sx]; ERat 1])) /\
  to_const_polynomial gxy 20 "x" (EPow (ESum [EProd [ERat 2; sx]; ERat 3]) (ERat 3)) = Ok [ERat 27; ERat 54; ERat 36; ERat 8] /\
  partial_fractions gxy 20 "x" (EProd [ESum [sx; ERat 5]; EPow (ESum [sx; ERat 1]) (ERat (-1)); EPow (ESum [sx; ERat 2]) (ERat (-1))])
    = Ok (Some (ESum [EProd [ERat 4; EPow (ESum [sx; ERat 1]) (ERat (-1))]; EProd [ERat (-3); EPow (ESum [sx; ERat 2]) (ERat (-1))]])) /\
  (exists e', complete_square gxy 20 "x" (EPow (ESum [EPow sx (ERat 2); sx; ERat 1]) (ERat (-1))) = Ok (Some e')) /\
  (exists a b d, rewrite_trig gxy (EProd [ETrig Sin sx; ETrig Sec sx]) = Ok (Some [a; b; d])) /\
  rewrite_pyth gxy (EPow (ETrig Sin sx) (ERat 3)) = Ok (Some (EProd [ETrig Sin sx; ESum [EProd [ERat (-1); EPow (ETrig Cos sx) (ERat 2)]; ERat 1]])).
Proof.
  split; [vm_compute; reflexivity|]. split; [vm_compute; reflexivity|]. split; [vm_compute; reflexivity|].
  split; [eexists; vm_compute; reflexivity|]. split; [do 3 eexists; vm_compute; reflexivity|vm_compute; reflexivity].
Qed.

(** ** What the plain code gets wrong *)

(** C28: where cos x < 0 the substitution by 1/sqrt(1-u^2) has the wrong sign: the new integrand at u = sin x times
    the derivative of sin x is minus the old integrand. *)
Theorem c28_wrong_sign_refuted : exists g,
  trig_usub (PF exact_cfg 20) (fun _ _ => true) "x" "y" (ETrig Sin sx) = Ok (Some (ETrig Sin sx, g)) /\
  (forall rho, cos (rho "x"%string) < 0 ->
     ev (upd rho "y" (ev rho (ETrig Sin sx))) g * cos (rho "x"%string) = - ev rho (ETrig Sin sx)) /\
  exists rho, cos (rho "x"%string) < 0 /\ ev rho (ETrig Sin sx) <> 0.
Proof.
  eexists. split; [vm_compute; reflexivity|]. split.
  - intros rho Hc. cbn [ev map Rprod fold_right Rsum tev]. unfold upd. simpl String.eqb. cbv iota.
    set (s := sin (rho "x"%string)). set (k := cos (rho "x"%string)) in *.
    assert (E : Q2R (-1) * (rpow s (Q2R 2) * 1) + (Q2R 1 + 0) = k * k).
    { rewrite rpow_2, Q2R_1, Q2R_m1. pose proof (sin2_cos2 (rho "x"%string)) as SC. unfold Rsqr in SC. fold s k in SC. lra. }
    rewrite E. assert (K : 0 < k * k) by nra. rewrite rpow_pos by auto.
    assert (P : Rpower (k * k) (Q2R (-1 # 2)) = / - k).
    { replace (Q2R (-1 # 2)) with (- (/ 2)) by (unfold Q2R; simpl; lra). rewrite Rpower_Ropp. f_equal.
      rewrite Rpower_sqrt by auto. replace (k * k) with ((- k) * (- k)) by ring. apply sqrt_square. lra. }
    rewrite P. field. lra.
  - exists (fun _ => 3). pose proof pi_gt_3. pose proof PI_4. split.
    + apply cos_lt_0; lra.
    + cbn [ev tev]. pose proof (sin_gt_0 3 ltac:(lra) ltac:(lra)). lra.
Qed.

(** C31: the coefficients found for (2*sqrt(x+1) - 2)*(sqrt(x+1) + 1) = 2x are those of x - 1. *)
Theorem c31_lost_multiplier_refuted :
  let r := EPow (ESum [sx; ERat 1]) (ERat (1 # 2)) in
  let e := EProd [ESum [EProd [ERat 2; r]; ERat (-2)]; ESum [r; ERat 1]] in
  to_const_polynomial (PF exact_cfg 20) 20 "x" e = Ok [ERat (-1); ERat 1] /\
  forall rho, -1 < rho "x"%string -> wd rho e /\
    ev rho e = 2 * rho "x"%string /\ ev rho e <> ev rho (ERat (-1)) + rho "x"%string * ev rho (ERat 1).
Proof.
  cbv zeta. split; [vm_compute; reflexivity|]. intros rho Hx.
  assert (RP : rp rho (ESum [sx; ERat 1])).
  { apply rp_unfold. split; auto. cbn [ev map Rsum fold_right]. rewrite Q2R_1. cbn [ev]. lra. }
  assert (EV : ev rho (EProd [ESum [EProd [ERat 2; EPow (ESum [sx; ERat 1]) (ERat (1 # 2))]; ERat (-2)]; ESum [EPow (ESum [sx; ERat 1]) (ERat (1 # 2)); ERat 1]]) = 2 * rho "x"%string).
  { cbn [ev map Rprod Rsum fold_right]. rewrite Q2R_1. cbn [ev].
    set (x := rho "x"%string) in *. assert (K : 0 < x + (1 + 0)) by lra. rewrite rpow_pos by auto.
    replace (Q2R (1 # 2)) with (/ 2) by (unfold Q2R; simpl; lra). rewrite Rpower_sqrt by auto.
    pose proof (sqrt_sqrt (x + (1 + 0)) ltac:(lra)) as SS. set (s := sqrt (x + (1 + 0))) in *.
    replace (Q2R 2) with 2 by (unfold Q2R; simpl; lra). replace (Q2R (-2)) with (-2) by (unfold Q2R; simpl; lra). nra. }
  split; [|split; [exact EV|]].
  - assert (WP : wd rho (EPow (ESum [sx; ERat 1]) (ERat (1 # 2)))) by (split; [simpl; auto|split; [exact I|now right]]).
    apply wd_prod. split; [|unfold one_const; simpl; lia].
    repeat (apply Forall_cons || apply Forall_nil); apply wd_sum; repeat (apply Forall_cons || apply Forall_nil); try exact I; auto.
    apply wd_prod. split; [|unfold one_const; simpl; lia]. repeat (apply Forall_cons || apply Forall_nil); auto. exact I.
  - rewrite EV. cbn [ev]. rewrite Q2R_1, Q2R_m1. lra.
Qed.

(** C33: denominators of unequal degree, or two quadratic factors, make the transform crash. *)
Theorem c33_crash_refuted :
  partial_fractions (PF exact_cfg 20) 20 "x"
    (EProd [EPow (ESum [sx; ERat 1]) (ERat (-1)); EPow (ESum [EPow sx (ERat 2); ERat 1]) (ERat (-1))]) = Raise ValueError /\
  partial_fractions (PF exact_cfg 20) 20 "x"
    (EProd [EPow (ESum [EPow sx (ERat 2); ERat 1]) (ERat (-1)); EPow (ESum [EPow sx (ERat 2); ERat 2]) (ERat (-1))]) = Raise AssertionError.
Proof. split; vm_compute; reflexivity. Qed.

(** C34: for a square (d = 0) the rewritten quadratic is 0, and its reciprocal infinity. *)
Theorem c34_square_refuted :
  let e := ESum [EPow sx (ERat 2); EProd [ERat (-2); sx]; ERat 1] in
  cts_perform (PF exact_cfg 20) 20 "x" e = Ok (ERat 0) /\
  complete_square (PF exact_cfg 20) 20 "x" (EPow e (ERat (-1))) = Ok (Some EInf) /\
  forall rho, rho "x"%string <> 1 -> wd rho (EPow e (ERat (-1))) /\ ev rho e <> 0.
Proof.
  cbv zeta. split; [vm_compute; reflexivity|]. split; [vm_compute; reflexivity|]. intros rho H.
  assert (E : ev rho (ESum [EPow sx (ERat 2); EProd [ERat (-2); sx]; ERat 1]) <> 0).
  { cbn [ev map Rprod Rsum fold_right]. rewrite rpow_2, Q2R_1. cbn [ev].
    replace (Q2R (-2)) with (-2) by (unfold Q2R; simpl; lra). set (x := rho "x"%string) in *.
    assert (0 < (x - 1) * (x - 1)); [|lra]. assert (x - 1 <> 0) by lra. nra. }
  split; auto. split; [|split; [exact I|left; exists (-1)%Q; repeat split; auto]].
  apply wd_sum. constructor; [|constructor; [|constructor; [exact I|constructor]]].
  - split; [exact I|]. split; [exact I|]. left. exists 2%Q. repeat split; auto. right. discriminate.
  - apply wd_prod. split; [repeat constructor; exact I|unfold one_const; simpl; lia].
Qed.
