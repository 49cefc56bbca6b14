(** * TransSound: every integration transform preserves the integral.

    Specification: rewriting transforms keep the value of the integrand; a substitution [u] from [v]
    to [y] satisfies f(v) = g(u(v)) * u'(v) ([USub]); and the backward step of a substitution turns
    an antiderivative of g into one of f ([usub_back]). *)
From Coquelicot Require Import Coquelicot.
From Verif Require Export TransMono.
Open Scope R_scope.

Lemma trig_sym dom c n f v : k_trig (F dom c (S n)) f (ESym v) =
  guard (trig_always f || dom (ETrig f (ESym v))) (Ok (ETrig f (ESym v))).
Proof. cbn [F k_trig]. f_equal. destruct f; reflexivity. Qed.

Lemma one_constb_ok ts : one_constb ts = true -> one_const ts.
Proof. unfold one_constb, one_const. intros H. now apply Nat.leb_le in H. Qed.

Lemma cert_wd rho fk e : FSound rho fk -> cert (k_node fk) e = true -> wd rho e.
Proof.
  intros HF. induction e as [q| | | | |s| |ts IH|ts IH|b x IHb IHx|i b IHi IHb|f i IHi|i IHi] using expr_ind';
    cbn [cert]; intros H; try exact I; try discriminate.
  - apply wd_sum. rewrite forallb_forall in H. rewrite Forall_forall in *. auto.
  - apply andb_prop in H as [H H']. apply wd_prod. split; [|now apply one_constb_ok].
    rewrite forallb_forall in H. rewrite Forall_forall in *. auto.
  - apply andb_prop in H as [H H3]. apply andb_prop in H as [H1 H2]. cbn [wd]. repeat split; auto.
    apply orb_prop in H3 as [H3|H3]; [apply pow_always_ok; auto|]. now apply (f_node _ _ HF) in H3.
  - apply andb_prop in H as [H H3]. apply andb_prop in H as [H1 H2]. apply (f_node _ _ HF) in H3 as (A & B & C).
    cbn [wd]. auto.
  - apply andb_prop in H as [H1 H3]. cbn [wd]. split; auto.
    apply orb_prop in H3 as [H3|H3]; [destruct f; try discriminate; exact I|]. now apply (f_node _ _ HF) in H3 as [A _].
  - cbn [wd]. auto.
Qed.

(** ** Rewriting transforms, at one assignment *)
Section Rewrite.
Context (rho : env) (fk : fkern) (HF : FSound rho fk) (v : string).
Let HG : GSound rho fk := f_k _ _ HF.
Notation W := (wd rho).
Notation V := (ev rho).

Lemma Rprod_app l m : Rprod (l ++ m) = Rprod l * Rprod m.
Proof. induction l as [|a l IH]; simpl; [ring|]. rewrite IH. ring. Qed.

Lemma pull_go_sound l : forall pre c p, pull_go fk v pre l = Ok (Some (c, p)) -> Forall W pre -> Forall W l ->
  contains v c = false /\ W c /\ W p /\ Rprod (map V (pre ++ l)) = V c * V p.
Proof.
  induction l as [|t l IH]; intros pre c p H Wp Wl; cbn [pull_go] in H; [discriminate|].
  inversion Wl as [|? ? Wt Wl']; subst. destruct (contains v t) eqn:C; cbn [negb] in H.
  - destruct (IH _ _ _ H) as (A1 & A2 & A3 & A4); auto.
    { apply Forall_app; auto. }
    repeat split; auto. now rewrite <- app_assoc in A4.
  - apply bind_ok in H as (q & Hq & H). injection H as <- <-.
    apply (g_prod _ _ HG) in Hq as [B1 B2]; [|apply Forall_app; auto]. repeat split; auto.
    rewrite B2, !map_app, !Rprod_app. simpl. ring.
Qed.
Theorem pull_const_sound e c p : pull_const fk v e = Ok (Some (c, p)) -> W e ->
  contains v c = false /\ W c /\ W p /\ V e = V c * V p.
Proof.
  unfold pull_const. intros H We. destruct e; try discriminate. apply wd_prod in We as [We _].
  now apply (pull_go_sound _ [] _ _ H).
Qed.

Lemma tcp2_ok n a b x y : catchA (p <- to_const_polynomial fk n v a;; q <- to_const_polynomial fk n v b;; Ok (p, q)) = Ok (Some (x, y)) ->
  to_const_polynomial fk n v a = Ok x /\ to_const_polynomial fk n v b = Ok y.
Proof.
  intros H.
  destruct (p <- to_const_polynomial fk n v a;; q <- to_const_polynomial fk n v b;; Ok (p, q)) as [z|[]|] eqn:E; try discriminate.
  injection H as ->. apply bind_ok in E as (p & Hp & E). apply bind_ok in E as (q & Hq & E). injection E as -> ->. auto.
Qed.

Theorem poly_division_sound n e e' : poly_division fk n v e = Ok (Some e') -> W e -> good rho e e'.
Proof.
  unfold poly_division. intros H We. destruct (symbols e) as [|s [|]]; try discriminate.
  destruct e as [| | | | | | | |ts| | | |]; try discriminate. destruct (negb _); [discriminate|].
  apply bind_ok in H as ([num den] & Hnd & H). destruct (isq den 1); [discriminate|].
  apply bind_ok in H as (o & Ho & H). destruct o as [[a b]|]; [|discriminate].
  destruct (Nat.ltb _ _); [discriminate|]. apply bind_ok in H as (r & Hr & H). injection H as <-.
  apply tcp2_ok in Ho as [Ha Hb]. apply wd_prod in We as [We _].
  destruct (numdenF_sound rho fk HF _ _ _ Hnd We) as (Wn & Wd & Nd & E).
  destruct (to_const_polynomial_sound rho fk HF v _ _ _ Ha Wn) as [Wa Ea].
  destruct (to_const_polynomial_sound rho fk HF v _ _ _ Hb Wd) as [Wb Eb].
  destruct (poly_div_sound rho fk HF v _ _ _ _ Hr Wa Wb) as (A & B & C). split; auto.
  rewrite C, Ea, Eb. cbn [ev]. now rewrite E.
Qed.

Theorem expand_step_sound n e e' : expand_step fk n e = Ok (Some e') -> W e -> good rho e e'.
Proof.
  unfold expand_step. intros H We. apply bind_ok in H as (b & Hb & H). destruct b; [|discriminate].
  apply bind_ok in H as (r & Hr & H). injection H as <-. eapply expandE_sound; eauto.
Qed.

Lemma transpose2_ok a : forall b m, transpose2 a b = Ok m -> m = map (fun p => [fst p; snd p]) (combine a b) /\ List.length a = List.length b.
Proof.
  induction a as [|x a IH]; intros [|y b] m H; cbn [transpose2] in H; try discriminate.
  - injection H as <-. auto.
  - apply bind_ok in H as (r & Hr & H). injection H as <-. apply IH in Hr as [-> E]. simpl. auto.
Qed.

Theorem partial_fractions_sound n e e' : partial_fractions fk n v e = Ok (Some e') -> W e -> good rho e e'.
Proof.
  unfold partial_fractions. intros H We. destruct e as [| | | | | | | |ts| | | |]; try discriminate.
  apply bind_ok in H as ([num den] & Hnd & H). destruct (isq den 1); [discriminate|].
  apply bind_ok in H as (o & Ho & H). destruct o as [[nl dl]|]; [|discriminate].
  destruct (Nat.leb _ _); [discriminate|]. apply tcp2_ok in Ho as [Hn _]. apply wd_prod in We as [We _].
  destruct (numdenF_sound rho fk HF _ _ _ Hnd We) as (Wn & Wd & Nd & E).
  destruct (to_const_polynomial_sound rho fk HF v _ _ _ Hn Wn) as [Wnl Enl].
  apply bind_ok in H as (fd & Hfd & H).
  assert (G : (exists us, den = EProd us) \/ (exists us, den = ESum us) -> W fd /\ V fd = V den).
  { intros [(us & ->)|(us & ->)]; [injection Hfd as <-; auto|]. now apply (factorE_sound rho fk HF us). }
  destruct fd as [| | | | | | | |[|d1 [|d2 [|]]]| | | |]; try discriminate.
  assert (Wfd : W (EProd [d1; d2]) /\ V (EProd [d1; d2]) = V den).
  { apply G. destruct den; try discriminate; eauto. }
  clear G Hfd. destruct Wfd as [Wfd Efd]. apply wd_prod in Wfd as [Wfd _].
  inversion Wfd as [|? ? W1 Wfd']; subst. inversion Wfd' as [|? ? W2 _]; subst.
  cbn [ev map Rprod fold_right] in Efd. destruct (_ && _); [|discriminate].
  apply bind_ok in H as (l1 & Hl1 & H). apply bind_ok in H as (l2 & Hl2 & H).
  apply bind_ok in H as (m & Hm & H). apply bind_ok in H as (inv & Hinv & H).
  destruct (to_const_polynomial_sound rho fk HF v _ _ _ Hl1 W1) as [Wl1 El1].
  destruct (to_const_polynomial_sound rho fk HF v _ _ _ Hl2 W2) as [Wl2 El2].
  apply transpose2_ok in Hm as [-> Len]. destruct inv as [inv|]; [|discriminate].
  destruct l2 as [|p0 [|p1 [|p2 l2]]]; destruct l1 as [|q0 [|q1 [|q2 l1]]]; try discriminate.
  2:{ exfalso. cbn [map combine fst snd] in Hinv. unfold invert in Hinv. clear -Hinv.
      cbn [forallb List.length Nat.eqb andb negb] in Hinv. destruct (negb _); discriminate. }
  cbn [map combine fst snd] in Hinv.
  inversion Wl1 as [|? ? Wq0 Wl1']; subst. inversion Wl1' as [|? ? Wq1 _]; subst.
  inversion Wl2 as [|? ? Wp0 Wl2']; subst. inversion Wl2' as [|? ? Wp1 _]; subst.
  destruct (invert_sound rho fk HF _ _ _ _ _ Hinv Wp0 Wq0 Wp1 Wq1) as (i11 & i12 & i21 & i22 & -> & Wi1 & Wi2 & Wi3 & Wi4 & Det & V1 & V2 & V3 & V4).
  apply bind_ok in H as ([n0 n1] & Hn0 & H).
  assert (N : W n0 /\ W n1 /\ V n0 + rho v * V n1 = V num).
  { destruct nl as [|a [|b [|]]]; try discriminate; injection Hn0 as <- <-;
      inversion Wnl as [|? ? Wa Wnl']; subst; rewrite <- Enl.
    - repeat split; auto. simpl. rewrite Q2R_0. ring.
    - inversion Wnl' as [|? ? Wb _]; subst. repeat split; auto. simpl. ring. }
  destruct N as (Wn0 & Wn1 & EN).
  apply bind_ok in H as (a0 & Ha0 & H). apply bind_ok in H as (a1 & Ha1 & H).
  apply bind_ok in H as (x & Hx & H). apply bind_ok in H as (y & Hy & H). apply bind_ok in H as (s & Hs & H). injection H as <-.
  assert (D : forall a b r, dot2 fk [a; b] n0 n1 = Ok r -> W a -> W b -> W r /\ V r = V a * V n0 + V b * V n1).
  { intros a b r Hr Wa Wb. cbn [dot2] in Hr. apply bind_ok in Hr as (x1 & Hx1 & Hr). apply bind_ok in Hr as (y1 & Hy1 & Hr).
    apply (g_mul _ _ HG) in Hx1 as [X1 X2]; auto. apply (g_mul _ _ HG) in Hy1 as [Y1 Y2]; auto.
    apply (g_add _ _ HG) in Hr as [R1 R2]; auto. split; auto. now rewrite R2, X2, Y2. }
  apply D in Ha0 as [A01 A02]; auto. apply D in Ha1 as [A11 A12]; auto.
  apply (g_div _ _ HG) in Hx as (X0 & X1 & X2); auto. apply (g_div _ _ HG) in Hy as (Y0 & Y1 & Y2); auto.
  apply (g_add _ _ HG) in Hs as [S1 S2]; auto. split; auto.
  rewrite S2, X2, Y2, A02, A12, V1, V2, V3, V4. cbn [ev]. rewrite E, <- Efd, <- EN.
  rewrite <- El1, <- El2 in *. cbn [pval fold_right] in *. field. repeat split; auto; nra.
Qed.

Lemma k_trig_ok f i r : k_trig fk f i = Ok r -> W i -> tdom f (V i) /\ W r /\ V r = tev f (V i).
Proof. apply (f_trig _ _ HF). Qed.

Lemma div_nz a b : a / b <> 0 -> a <> 0.
Proof. intros H Z. apply H. rewrite Z. unfold Rdiv. ring. Qed.

(** collects what the constructors computed *)
Ltac vals := repeat match goal with
    | Hk : k_trig _ _ _ = Ok _ |- _ => apply k_trig_ok in Hk as (? & ? & ?); [|first [exact I|assumption]]
    | Hk : op_div _ _ _ = Ok _ |- _ => apply (g_div _ _ HG) in Hk as (? & ? & ?); [|first [exact I|assumption]|first [exact I|assumption]]
    | Hk : op_mul _ _ _ = Ok _ |- _ => apply (g_mul _ _ HG) in Hk as (? & ?); [|first [exact I|assumption]|first [exact I|assumption]]
    | Hk : op_sub _ _ _ = Ok _ |- _ => apply (g_sub _ _ HG) in Hk as (? & ?); [|first [exact I|assumption]|first [exact I|assumption]]
    | Hk : op_add _ _ _ = Ok _ |- _ => apply (g_add _ _ HG) in Hk as (? & ?); [|first [exact I|assumption]|first [exact I|assumption]]
    | Hk : op_pow _ _ _ = Ok _ |- _ => apply (g_opow _ _ HG) in Hk as (? & ? & ?); [|first [exact I|assumption]|first [exact I|assumption]]
    | Hk : sqrtE _ _ = Ok _ |- _ => apply (g_sqrt _ _ HG) in Hk as (? & ? & ?); [|assumption]
    end.
Ltac rwall := repeat match goal with Hk : ev rho _ = _ |- _ => rewrite Hk in *; clear Hk end.

Lemma to_csc_tan_sound f g i e' : to_csc_tan fk f = Some g -> g i = Ok e' -> W i -> W e' /\ V e' = tev f (V i).
Proof.
  intros E H Wi. destruct f; try discriminate; cbn [to_csc_tan] in E; apply Some_inj in E; subst g; inv_ok;
    vals; (split; [assumption|]); rwall; cbn [ev tev tdom] in *; rewrite ?Q2R_1 in *; field; eauto using div_nz.
Qed.
Lemma to_sec_cot_sound f g i e' : to_sec_cot fk f = Some g -> g i = Ok e' -> W i -> W e' /\ V e' = tev f (V i).
Proof.
  intros E H Wi. destruct f; try discriminate; cbn [to_sec_cot] in E; apply Some_inj in E; subst g; inv_ok;
    vals; (split; [assumption|]); rwall; cbn [ev tev tdom] in *; rewrite ?Q2R_1 in *; field; eauto using div_nz.
Qed.

Lemma filterM_in {A} (f : A -> res bool) l l' a : filterM f l = Ok l' -> In a l' -> In a l.
Proof.
  revert l'. induction l as [|x l IH]; cbn [filterM]; intros l' H; [injection H as <-; auto|].
  apply bind_ok in H as (b & Hb & H). apply bind_ok in H as (r & Hr & H). injection H as <-.
  destruct b; simpl; [intros [|]; eauto|]. eauto.
Qed.

Theorem rewrite_trig_sound e l : rewrite_trig fk e = Ok (Some l) -> W e -> Forall (good rho e) l.
Proof.
  unfold rewrite_trig. intros H We. destruct (negb _); [discriminate|].
  apply bind_ok in H as (a1 & H1 & H). apply bind_ok in H as (a2 & H2 & H). apply bind_ok in H as (a3 & H3 & H).
  apply bind_ok in H as (l' & Hl & H). injection H as <-.
  apply (replace_class_sound rho fk HF _ (to_sin_cos_sound rho fk HF)) in H1; auto.
  apply (replace_class_sound rho fk HF _ to_csc_tan_sound) in H2; auto.
  apply (replace_class_sound rho fk HF _ to_sec_cot_sound) in H3; auto.
  apply Forall_forall. intros x Hx. eapply filterM_in in Hx; eauto. simpl in Hx. intuition (subst; auto).
Qed.

Theorem simplify_step_sound e e' : simplify_step fk e = Ok (Some e') -> W e -> good rho e e'.
Proof.
  unfold simplify_step. intros H We. apply bind_ok in H as ([a hit] & Ha & H). destruct hit; [|discriminate].
  injection H as <-. apply (kinder_sound rho fk HF) in Ha; auto.
  constructor; [apply (pythagorean_sound rho fk HF)|constructor].
Qed.

Lemma cts_perform_sound n e e' : cts_perform fk n v e = Ok e' -> W e -> good rho e e'.
Proof.
  unfold cts_perform. intros H We. apply bind_ok in H as (p & Hp & H).
  destruct (to_const_polynomial_sound rho fk HF v _ _ _ Hp We) as [Wp Ep].
  destruct p as [|c0 [|c1 [|c2 [|]]]]; try discriminate.
  inversion Wp as [|? ? W0 Wp']; subst. inversion Wp' as [|? ? W1 Wp'']; subst. inversion Wp'' as [|? ? W2 _]; subst.
  assert (Wv : W (ESym v)) by exact I.
  inv_ok. vals. split; [assumption|]. rewrite <- Ep. cbn [pval fold_right].
  rwall. cbn [ev] in *. change (Q2R 2) with (Q2R 2) in *.
  assert (E2 : Q2R 2 = 2) by (unfold Q2R; simpl; lra). rewrite E2 in *. rewrite ?Q2R_1 in *.
  rewrite <- E2 in *. rewrite ?rpow_2 in *. rewrite E2 in *.
  match goal with |- context [sqrt ?d] => assert (S : sqrt d * sqrt d = d) by (apply sqrt_def; lra); assert (P : 0 < sqrt d) by (apply sqrt_lt_R0; lra); set (s := sqrt d) in * end.
  set (a := rho v + V c1 / V c2 / 2) in *.
  transitivity ((a * a + s * s) * V c2).
  - rewrite <- S. field. lra.
  - rewrite S. unfold a. field. auto.
Qed.

Theorem complete_square_sound n e e' : complete_square fk n v e = Ok (Some e') -> W e -> good rho e e'.
Proof.
  unfold complete_square. intros H We. apply bind_ok in H as (b & Hb & H). destruct b; [|discriminate].
  apply bind_ok in H as (r & Hr & H). injection H as <-. eapply (replace_factory_sound rho fk HF); eauto.
  intros t t' _. apply cts_perform_sound.
Qed.

Lemma odd_pow_split s k : (s * s) ^ k * s = s ^ (2 * k + 1).
Proof. rewrite pow_add, pow_mult. simpl. rewrite !Rmult_1_r. reflexivity. Qed.

Lemma pyth_perform_sound e e' : pyth_cond e = true -> pyth_perform fk e = Ok e' -> W e -> good rho e e'.
Proof.
  intros Hc H We. destruct e as [| | | | | | | | |b x| | |]; try discriminate. destruct b as [| | | | | | | | | | |f i|]; try discriminate.
  assert (Hx : exists q, x = ERat q /\ negb (Qle_bool q 1) && qisint q && Z.odd (numer q) = true /\ (f = Sin \/ f = Cos)).
  { destruct f; try discriminate; destruct x; try discriminate; cbn [pyth_cond] in Hc; eauto. }
  destruct Hx as (q & -> & Hq & Hf). clear Hc. apply andb_prop in Hq as [Hq Ho]. apply andb_prop in Hq as [Hl Hi].
  apply negb_true_iff in Hl. assert (Lq : ~ (q <= 1)%Q) by (intros L; apply Qle_bool_iff in L; congruence).
  assert (Q1 : Q2R 1 < Q2R q) by (apply Qreals.Qlt_Rlt, Qnot_le_lt; auto).
  rewrite (qisint_Q2R _ Hi) in Q1. rewrite Q2R_1 in Q1. apply lt_IZR in Q1.
  apply Z.odd_spec in Ho as [k Hk]. assert (K : (0 <= k)%Z) by lia.
  cbn [pyth_perform] in H. destruct We as (Wt & _ & Pd). destruct Wt as [Wi Td].
  inv_ok. vals. split; [assumption|].
  assert (E : V x0 = IZR k). { rwall. cbn [ev]. rewrite (qisint_Q2R _ Hi), Hk, plus_IZR, mult_IZR, Q2R_1. replace (Q2R 2) with 2 by (unfold Q2R; simpl; lra). field. }
  rwall. cbn [ev tev]. rewrite (qisint_Q2R _ Hi), Hk, rpow_2, Q2R_1.
  rewrite !rpow_int by (right; lia). rewrite !powerRZ_nonneg_pow by lia.
  replace (Z.to_nat (2 * k + 1)) with (2 * Z.to_nat k + 1)%nat by lia. rewrite <- odd_pow_split.
  pose proof (sin2_cos2 (V i)) as S. unfold Rsqr in S.
  destruct Hf as [-> | ->]; cbn [tev]; f_equal; f_equal; lra.
Qed.

Theorem rewrite_pyth_sound e e' : rewrite_pyth fk e = Ok (Some e') -> W e -> good rho e e'.
Proof.
  unfold rewrite_pyth. intros H We. apply bind_ok in H as ([a hit] & Ha & H). destruct hit; [|discriminate].
  injection H as <-. generalize dependent a. generalize true as h. revert We.
  assert (Base : forall t a h, pyth_cond t = true -> (r <- pyth_perform fk t;; Ok (r, true)) = Ok (a, h) -> W t -> good rho t a).
  { intros t a h Hc H Wt. apply bind_ok in H as (r & Hr & H). injection H as <- <-. now apply pyth_perform_sound. }
  induction e as [q| | | | |s0| |ts IH|ts IH|b x IHb IHx|i b IHi IHb|f i IHi|i IHi] using expr_ind'; intros We h a Ha;
    cbn [pyth_rewrite] in Ha;
    try (match type of Ha with context [pyth_cond ?t] => destruct (pyth_cond t) eqn:Hc end; [now apply (Base _ _ _ Hc Ha)|]);
    try (injection Ha as <- <-; split; auto; fail); try discriminate.
  apply bind_ok in Ha as ([ts' h'] & Ht & Ha). apply bind_ok in Ha as (p & Hp & Ha). injection Ha as <- <-.
  apply wd_prod in We as [We _].
  assert (G : Forall W ts' /\ map V ts' = map V ts).
  { clear Hp Hc. revert ts' h' Ht. induction IH as [|t l Ht Hl IHl]; intros ts' h' H.
    - injection H as <- <-. auto.
    - apply bind_ok in H as ([t' h1] & H1 & H). apply bind_ok in H as ([r' h2] & H2 & H). injection H as <- <-.
      inversion We as [|? ? Wt Wl]; subst. destruct (Ht Wt _ _ H1) as [A B]. destruct (IHl Wl _ _ H2) as [C D].
      split; [constructor; auto|]. simpl. now rewrite B, D. }
  destruct G as [G1 G2]. apply (g_prod _ _ HG) in Hp as [P1 P2]; auto. split; auto. rewrite P2, G2. reflexivity.
Qed.
End Rewrite.

(** ** Substitutions *)

(** Replacing [v] by [u(v)] in the integrand [g] over [y] and multiplying by u' gives [f]. *)
Definition USub (B : box) (v y : string) (u : expr) (f g : env -> R) : Prop :=
  y <> v /\ openv B y /\ contains y u = false /\
  forall rho, inB B rho -> B y (ev rho u) /\ wd rho u /\
    exists du, is_derive (fun t => ev (upd rho v t) u) (rho v) du /\
      f rho = g (upd rho y (ev rho u)) * du.

(** The range oracle is right: [u] maps the box into the (open) range of [y]. *)
Definition rng_ok (B : box) (rng : string -> expr -> bool) : Prop :=
  forall y u, rng y u = true -> openv B y /\ forall rho, inB B rho -> B y (ev rho u).

Section Forward.
Context (B : box) (v : string) (Ho : openv B v) (fk : fkern) (HS : BSound B fk)
  (rng : string -> expr -> bool) (HR : rng_ok B rng) (y : string).

Lemma sg_ok' {A} b (r : res A) a rho : inB B rho -> guard (negb (k_strict fk) || b) r = Ok a -> b = true /\ r = Ok a.
Proof. intros Hr. apply (sg_ok rho fk (HS rho Hr)). Qed.

(** What [usub] guarantees, given that at every assignment of the box with y = u the derivative of
    [u] times [g] is the integrand. *)
Lemma usub_fwd e u g r : usub fk rng v y e u g = Ok r -> wdB B e ->
  (wdB B u -> forall rho, inB B rho -> rho y = ev rho u ->
     exists du, is_derive (fun t => ev (upd rho v t) u) (rho v) du /\ ev rho e = ev rho g * du) ->
  r = (u, g) /\ ((exists rho, inB B rho) -> wdB B g /\ USub B v y u (fun r => ev r e) (fun r => ev r g)).
Proof.
  intros H We HD. unfold usub in H.
  assert (E : r = (u, g)). { destruct (guard_ok _ _ _ H) as [_ E]. now injection E. }
  split; auto. intros [rho0 H0]. apply (sg_ok' _ _ _ rho0 H0) in H as [H _]. unfold usub_guard in H.
  apply andb_prop in H as [H Hr]. apply andb_prop in H as [H Hg]. apply andb_prop in H as [H Hu].
  apply andb_prop in H as [H Hyu]. apply andb_prop in H as [Hy Hye].
  apply negb_true_iff in Hy, Hye, Hyu. apply String.eqb_neq in Hy.
  assert (Wu : wdB B u) by (intros rho Hb; eapply cert_wd; eauto).
  split; [intros rho Hb; eapply cert_wd; eauto|].
  apply HR in Hr as [Hoy Hr]. repeat split; auto.
  set (r1 := upd rho y (ev rho u)).
  assert (Hr1 : inB B r1) by (intros s; unfold r1, upd; destruct (String.eqb_spec s y); subst; auto).
  assert (E1 : r1 y = ev r1 u) by (unfold r1; rewrite upd_eq, ev_upd_notin; auto).
  destruct (HD Wu r1 Hr1 E1) as (du & D & E2). exists du. split.
  - assert (Rv : r1 v = rho v) by (unfold r1, upd; destruct (String.eqb_spec v y); congruence).
    rewrite Rv in D. eapply is_derive_ext; [|exact D]. intros t. cbv beta.
    apply ev_ext. intros s Hs. unfold r1, upd. destruct (String.eqb_spec s v); auto.
    destruct (String.eqb_spec s y); auto. subst. congruence.
  - rewrite <- E2. unfold r1. now rewrite ev_upd_notin.
Qed.

(** g0 = e[u := y] divided by u' *)
Lemma subst_div n e u du g0 g : diffE fk n v u = Ok du -> wdB B e -> wdB B u ->
  op_div fk g0 du = Ok g ->
  (forall rho, inB B rho -> rho y = ev rho u -> wd rho g0 /\ ev rho g0 = ev rho e) ->
  forall rho, inB B rho -> rho y = ev rho u ->
     exists d, is_derive (fun t => ev (upd rho v t) u) (rho v) d /\ ev rho e = ev rho g * d.
Proof.
  intros Hd We Wu Hg G rho Hr Ey. destruct (G rho Hr Ey) as [W0 E0].
  destruct (diff_box B v Ho fk n u du HS Hd Wu rho Hr) as [Wd D].
  destruct (g_div _ _ (HS rho Hr) _ _ _ Hg W0 Wd) as (N & _ & E). exists (ev rho du). split; auto.
  rewrite E, E0. field. auto.
Qed.

Lemma replace_y rho e u g0 : inB B rho -> rho y = ev rho u -> replaceE fk e u (ESym y) = Ok g0 -> wd rho e ->
  wd rho g0 /\ ev rho g0 = ev rho e.
Proof. intros Hr Ey H W. eapply (replaceE_sound rho fk (HS rho Hr)); eauto. exact I. Qed.

Context (NE : exists rho, inB B rho).

Theorem linear_usub_sound n e u g : linear_usub fk rng n v y e = Ok (Some (u, g)) -> wdB B e ->
  wdB B g /\ USub B v y u (fun r => ev r e) (fun r => ev r g).
Proof.
  intros H We. unfold linear_usub in H. destruct (Nat.ltb _ _); [discriminate|].
  apply bind_ok in H as ([b [u0 ic]] & Hc & H). destruct b; [|discriminate]. destruct u0 as [u0|]; [|discriminate].
  apply bind_ok in H as (du & Hd & H). apply bind_ok in H as (g0 & Hg0 & H). apply bind_ok in H as (g1 & Hg1 & H).
  apply bind_ok in H as (r & Hu & H). injection H as ->.
  destruct (usub_fwd _ _ _ _ Hu We) as [E K]; [|injection E as -> ->; auto].
  intros Wu. eapply subst_div; eauto. intros rho Hr Ey. destruct ic as [c|].
  - apply (sg_ok' _ _ _ rho Hr) in Hg0 as [K H]. apply andb_prop in K as [Kc _].
    apply bind_ok in H as (new & Hn & H). apply bind_ok in H as (u' & Hu' & H).
    apply (sg_ok' _ _ _ rho Hr) in H as [Ks H]. unfold sameb in Ks. apply andb_prop in Ks as [Ks1 Ks2]. apply negb_true_iff in Ks2. pose proof (eqb_coin _ _ Ks2 Ks1) as Ks. subst u'.
    assert (Wc : wd rho c) by (eapply cert_wd; eauto).
    destruct (g_div _ _ (HS rho Hr) _ _ _ Hn I Wc) as (N & Wn & En).
    destruct (g_mul _ _ (HS rho Hr) _ _ _ Hu' Wc I) as [_ Eu].
    eapply (replaceE_sound rho fk (HS rho Hr)); eauto. rewrite En. cbn [ev] in *. rewrite Ey, Eu. field. auto.
  - eapply replace_y; eauto.
Qed.

Theorem poly_usub_sound n e u g : poly_usub fk rng n v y e = Ok (Some (u, g)) -> wdB B e ->
  wdB B g /\ USub B v y u (fun r => ev r e) (fun r => ev r g).
Proof.
  intros H We. unfold poly_usub in H. destruct e as [| | | | | | | |ts| | | |]; try discriminate.
  apply bind_ok in H as (o & Ho' & H). destruct o as [[x rest]|]; [|discriminate].
  destruct (isq x 0); [discriminate|]. apply bind_ok in H as (u0 & Hu0 & H). cbv zeta in H.
  destruct (_ && _); [|discriminate].
  apply bind_ok in H as (du & Hd & H). apply bind_ok in H as (g0 & Hg0 & H). apply bind_ok in H as (g1 & Hg1 & H).
  apply bind_ok in H as (r & Hu & H). injection H as ->.
  destruct (usub_fwd _ _ _ _ Hu We) as [E K]; [|injection E as -> ->; auto].
  intros Wu. eapply subst_div; eauto. intros rho Hr Ey. eapply replace_y; eauto.
Qed.

Theorem generic_usub_sound n e u g : generic_usub fk rng n v y e = Ok (Some (u, g)) -> wdB B e ->
  wdB B g /\ USub B v y u (fun r => ev r e) (fun r => ev r g).
Proof.
  intros H We. unfold generic_usub in H. destruct e as [| | | | | | | |ts| | | |]; try discriminate.
  apply bind_ok in H as (o & Ho' & H). destruct o as [u0|]; [|discriminate].
  apply bind_ok in H as (du & Hd & H). apply bind_ok in H as (q & Hq & H). apply bind_ok in H as (g1 & Hg1 & H).
  apply bind_ok in H as (r & Hu & H). injection H as ->.
  destruct (usub_fwd _ _ _ _ Hu We) as [E K]; [|injection E as -> ->; auto].
  intros Wu rho Hr Ey. destruct (diff_box B v Ho fk n _ _ HS Hd Wu rho Hr) as [Wd D].
  destruct (g_div _ _ (HS rho Hr) _ _ _ Hq (We rho Hr) Wd) as (N & Wq & Eq).
  destruct (replace_y rho _ _ _ Hr Ey Hg1 Wq) as [Wg Eg].
  exists (ev rho du). split; auto. rewrite Eg, Eq. field. auto.
Qed.

Lemma sym_comp (h : R -> R) rho d : is_derive h (rho v) d ->
  is_derive (fun t => h (ev (upd rho v t) (ESym v))) (rho v) d.
Proof. intros D. apply is_derive_ext with (f := h); auto. intros t. cbn [ev]. now rewrite upd_eq. Qed.

Theorem trig_usub_sound e u g : trig_usub fk rng v y e = Ok (Some (u, g)) -> wdB B e ->
  wdB B g /\ USub B v y u (fun r => ev r e) (fun r => ev r g).
Proof.
  intros H We. unfold trig_usub in H. destruct (trig_key v e) as [f|] eqn:Hk; [|discriminate].
  apply bind_ok in H as (g0 & Hg0 & H). apply bind_ok in H as (d & Hd & H). apply bind_ok in H as (g1 & Hg1 & H).
  destruct NE as [rho0 H0]. apply (sg_ok' _ _ _ rho0 H0) in H as [Sg H].
  apply bind_ok in H as (r & Hu & H). injection H as ->.
  destruct (usub_fwd _ _ _ _ Hu We) as [E K]; [|injection E as -> ->; auto].
  intros Wu rho Hr Ey. pose proof (f_k _ _ (HS rho Hr)) as HG.
  destruct (replace_y rho _ _ _ Hr Ey Hg0 (We rho Hr)) as [Wg0 Eg0].
  assert (Hf : f = Sin \/ f = Cos \/ f = Tan).
  { unfold trig_key in Hk. repeat match type of Hk with (if ?b then _ else _) = _ => destruct b end;
      try discriminate; injection Hk as <-; auto. }
  assert (Wy : wd rho (ESym y)) by exact I.
  assert (T : tdom f (rho v)) by (apply (Wu rho Hr)).
  cbn [ev] in Ey. pose proof (sin2_cos2 (rho v)) as S. unfold Rsqr in S.
  destruct Hf as [-> | [-> | ->]]; cbn [trig_dy trig_sign tev tdom] in *.
  - apply bind_ok in Hd as (q & Hq & Hd). apply bind_ok in Hd as (m & Hm & Hd). apply bind_ok in Hd as (s & Hs & Hd).
    apply (g_opow _ _ HG) in Hq as (_ & Q1 & Q2); auto; try exact I. cbn [ev] in Q2. rewrite rpow_2, Ey in Q2.
    apply (g_sub _ _ HG) in Hm as [M1 M2]; auto; try exact I. cbn [ev] in M2. rewrite Q2R_1, Q2 in M2.
    apply (g_sqrt _ _ HG) in Hs as (S0 & S1 & S2); auto. rewrite M2 in S2.
    apply (g_div _ _ HG) in Hd as (D0 & D1 & D2); auto; try exact I.
    apply (g_mul _ _ HG) in Hg1 as [G1 G2]; auto.
    apply (f_node _ _ (HS rho Hr)) in Sg. cbn [node_ok ev tev] in Sg.
    assert (C : sqrt (1 - sin (rho v) * sin (rho v)) = cos (rho v)).
    { apply sqrt_lem_1; [rewrite M2 in S0; lra|lra|lra]. }
    exists (cos (rho v)). split; [apply (sym_comp sin), is_derive_sin|].
    rewrite G2, D2, S2, C, Eg0. cbn [ev]. rewrite Q2R_1. field. lra.
  - apply bind_ok in Hd as (q & Hq & Hd). apply bind_ok in Hd as (m & Hm & Hd). apply bind_ok in Hd as (s & Hs & Hd).
    apply (g_opow _ _ HG) in Hq as (_ & Q1 & Q2); auto; try exact I. cbn [ev] in Q2. rewrite rpow_2, Ey in Q2.
    apply (g_sub _ _ HG) in Hm as [M1 M2]; auto; try exact I. cbn [ev] in M2. rewrite Q2R_1, Q2 in M2.
    apply (g_sqrt _ _ HG) in Hs as (S0 & S1 & S2); auto. rewrite M2 in S2.
    apply (g_div _ _ HG) in Hd as (D0 & D1 & D2); auto; try exact I.
    apply (g_mul _ _ HG) in Hg1 as [G1 G2]; auto.
    apply (f_node _ _ (HS rho Hr)) in Sg. cbn [node_ok ev tev] in Sg.
    assert (C : sqrt (1 - cos (rho v) * cos (rho v)) = sin (rho v)).
    { apply sqrt_lem_1; [rewrite M2 in S0; lra|lra|lra]. }
    exists (- sin (rho v)). split; [apply (sym_comp cos), is_derive_cos|].
    rewrite G2, D2, S2, C, Eg0. cbn [ev]. replace (Q2R (-1)) with (-1) by (unfold Q2R; simpl; lra). field. lra.
  - apply bind_ok in Hd as (q & Hq & Hd). apply bind_ok in Hd as (m & Hm & Hd).
    apply (g_opow _ _ HG) in Hq as (_ & Q1 & Q2); auto; try exact I. cbn [ev] in Q2. rewrite rpow_2, Ey in Q2.
    apply (g_add _ _ HG) in Hm as [M1 M2]; auto; try exact I. cbn [ev] in M2. rewrite Q2R_1, Q2 in M2.
    apply (g_div _ _ HG) in Hd as (D0 & D1 & D2); auto; try exact I.
    apply (g_mul _ _ HG) in Hg1 as [G1 G2]; auto.
    exists (/ (cos (rho v) * cos (rho v))). split.
    + apply (sym_comp (fun t => sin t / cos t)). auto_derive; auto. field_simplify; auto. f_equal. simpl. lra.
    + rewrite G2, D2, M2, Eg0. cbn [ev]. rewrite Q2R_1.
      replace (1 + sin (rho v) / cos (rho v) * (sin (rho v) / cos (rho v))) with (/ (cos (rho v) * cos (rho v))).
      * field. auto.
      * apply (Rmult_eq_reg_r (cos (rho v) * cos (rho v))); [|now apply Rmult_integral_contrapositive_currified].
        field_simplify; auto. simpl. lra.
Qed.

Theorem inv_usub_sound e u g : inv_usub fk rng v y e = Ok (Some (u, g)) -> wdB B e ->
  wdB B g /\ USub B v y u (fun r => ev r e) (fun r => ev r g).
Proof.
  intros H We. unfold inv_usub in H. apply bind_ok in H as (o & Hk & H). destruct o as [f|]; [|discriminate].
  apply bind_ok in H as (d & Hd & H). apply bind_ok in H as (x & Hx & H). apply bind_ok in H as (g0 & Hg0 & H).
  apply bind_ok in H as (g1 & Hg1 & H). apply bind_ok in H as (u0 & Hu0 & H).
  apply bind_ok in H as (r & Hu & H). injection H as ->.
  destruct (usub_fwd _ _ _ _ Hu We) as [E K]; [|injection E as -> ->; auto].
  intros Wu rho Hr Ey. pose proof (f_k _ _ (HS rho Hr)) as HG.
  assert (Hf : f = Sin \/ f = Tan).
  { unfold inv_key in Hk. apply bind_ok in Hk as (b & _ & Hk). destruct b; [injection Hk as <-; auto|].
    apply bind_ok in Hk as (b' & _ & Hk). destruct b'; [injection Hk as <-; auto|discriminate]. }
  assert (Wy : wd rho (ESym y)) by exact I. assert (Wv : wd rho (ESym v)) by exact I.
  destruct (f_trig _ _ (HS rho Hr) _ _ _ Hx Wy) as (X0 & X1 & X2).
  destruct (f_trig _ _ (HS rho Hr) _ _ _ Hu0 Wv) as (U0 & U1 & U2). rewrite U2 in Ey. cbn [ev] in *.
  destruct Hf as [-> | ->]; cbn [tev tdom] in *.
  - assert (Rg : forall t, B v t -> -1 <= t <= 1).
    { intros t Ht. pose proof (inB_upd B v rho t Hr Ht) as Hb.
      destruct (f_trig _ _ (HS _ Hb) _ _ _ Hu0 I) as (T & _). cbn [ev tdom] in T. now rewrite upd_eq in T. }
    assert (Rs : -1 < rho v < 1).
    { destruct (Ho (rho v) (Hr v)) as [eps He].
      pose proof (cond_pos eps) as Pe.
      assert (A : -1 <= rho v + eps / 2 <= 1).
      { apply Rg, He. unfold ball; simpl; unfold AbsRing_ball, abs, minus, plus, opp; simpl.
        replace (rho v + eps / 2 + - rho v) with (eps / 2) by ring. rewrite Rabs_right; lra. }
      assert (A' : -1 <= rho v - eps / 2 <= 1).
      { apply Rg, He. unfold ball; simpl; unfold AbsRing_ball, abs, minus, plus, opp; simpl.
        replace (rho v - eps / 2 + - rho v) with (- (eps / 2)) by ring. rewrite Rabs_Ropp, Rabs_right; lra. }
      lra. }
    assert (P1 : 0 < 1 - (rho v)²) by (unfold Rsqr; nra).
    exists (/ sqrt (1 - (rho v)²)). split.
    + apply (box_ext B v Ho rho (fun r => asin (r v))); auto.
      * intros r0 Hb. destruct (f_trig _ _ (HS r0 Hb) _ _ _ Hu0 I) as (_ & _ & A). exact A.
      * apply (sym_comp asin), is_derive_asin. auto.
    + apply (f_trig _ _ (HS rho Hr)) in Hd as (_ & D1 & D2); auto.
      apply (replaceE_sound rho fk (HS rho Hr)) in Hg0 as [G1 G2]; auto.
      2:{ rewrite X2, Ey. cbn [ev]. now apply sin_asin. }
      apply (g_mul _ _ HG) in Hg1 as [M1 M2]; auto. rewrite M2, G2, D2. cbn [ev tev].
      rewrite Ey, cos_asin by lra. field. apply Rgt_not_eq, sqrt_lt_R0. exact P1.
  - exists (/ (1 + (rho v)²)). split.
    + apply (box_ext B v Ho rho (fun r => atan (r v))); auto.
      * intros r0 Hb. destruct (f_trig _ _ (HS r0 Hb) _ _ _ Hu0 I) as (_ & _ & A). exact A.
      * apply (sym_comp atan), is_derive_atan.
    + apply bind_ok in Hd as (s & Hs & Hd). apply (f_trig _ _ (HS rho Hr)) in Hs as (_ & S1 & S2); auto.
      apply (g_opow _ _ HG) in Hd as (_ & D1 & D2); auto; try exact I.
      apply (replaceE_sound rho fk (HS rho Hr)) in Hg0 as [G1 G2]; auto.
      2:{ rewrite X2, Ey. cbn [ev]. apply sin_atan_tan. }
      apply (g_mul _ _ HG) in Hg1 as [M1 M2]; auto. rewrite M2, G2, D2, S2. cbn [ev tev]. rewrite rpow_2, Ey.
      rewrite cos_atan. assert (P : 0 < 1 + (rho v)²) by (unfold Rsqr; nra).
      assert (Q : sqrt (1 + (rho v)²) * sqrt (1 + (rho v)²) = 1 + (rho v)²) by (apply sqrt_def; lra).
      assert (N : sqrt (1 + (rho v)²) <> 0) by (apply Rgt_not_eq, sqrt_lt_R0; lra).
      transitivity (ev rho e * (sqrt (1 + (rho v)²) * sqrt (1 + (rho v)²)) * / (1 + (rho v)²)); [rewrite Q; field; lra|].
      field. split; auto. lra.
Qed.
End Forward.

(** ** The way back *)
Section Back.
Context (B : box) (v : string) (Ho : openv B v) (fk : fkern) (HS : BSound B fk).

Theorem usub_back y u f g F F' : USub B v y u f g -> AntiOn B y g F -> contains v F = false ->
  replaceE fk F (ESym y) u = Ok F' -> AntiOn B v f F'.
Proof.
  intros (Hy & Hoy & Hyu & HU) HA Hv H.
  assert (G : forall rho, inB B rho -> inB B (upd rho y (ev rho u))).
  { intros rho Hr s. unfold upd. destruct (String.eqb_spec s y); subst; auto. now apply HU. }
  assert (E : forall rho, inB B rho -> wd rho F' /\ ev rho F' = ev (upd rho y (ev rho u)) F).
  { intros rho Hr. eapply (replaceE_sound2 (upd rho y (ev rho u)) rho fk (HS rho Hr)); eauto.
    - apply HA. auto.
    - now apply HU.
    - cbn [ev]. now rewrite upd_eq.
    - intros s Hs. unfold upd. destruct (String.eqb_spec s y); auto. subst. now apply (f_neq _ _ (HS rho Hr)) in Hs. }
  intros rho Hr. split; [now apply E|]. destruct (HU rho Hr) as (Bu & Wu & du & D & Ef).
  apply (box_ext B v Ho rho (fun r => ev (upd r y (ev r u)) F)); auto; [intros r Hb; now apply E|].
  apply is_derive_ext with (f := fun t => ev (upd rho y (ev (upd rho v t) u)) F).
  { intros t. apply ev_ext. intros s Hs. unfold upd. destruct (String.eqb_spec s y); auto.
    destruct (String.eqb_spec s v); auto. subst. congruence. }
  destruct (HA (upd rho y (ev rho u)) (G rho Hr)) as [_ DA]. rewrite upd_eq in DA.
  eapply is_derive_eq; [apply (is_derive_comp' (fun z => ev (upd rho y z) F) (fun t => ev (upd rho v t) u))|].
  - rewrite rho_upd. eapply is_derive_ext; [|exact DA]. intros t. cbv beta. now rewrite upd_upd_eq.
  - exact D.
  - rewrite Ef. ring.
Qed.

Lemma AntiOn_scale f c F F' : AntiOn B v f F -> contains v c = false -> wdB B c -> op_mul fk c F = Ok F' ->
  AntiOn B v (fun r => ev r c * f r) F'.
Proof.
  intros HA Hc Wc H rho Hr. destruct (HA rho Hr) as [WF D].
  destruct (g_mul _ _ (HS rho Hr) _ _ _ H (Wc rho Hr) WF) as [W _]. split; auto.
  apply (box_ext B v Ho rho (fun r => ev r c * ev r F)); auto.
  - intros r Hb. destruct (HA r Hb) as [Wr _]. now apply (g_mul _ _ (HS r Hb)) in H as [_ M]; auto.
  - eapply is_derive_eq; [apply (is_derive_mult (fun t => ev (upd rho v t) c) (fun t => ev (upd rho v t) F));
      [now apply notin_const|exact D|intros; apply Rmult_comm]|].
    unfold plus, mult; simpl. rewrite rho_upd. ring.
Qed.

Lemma AntiOn_sum fs Fs F' : Forall2 (AntiOn B v) fs Fs -> k_sum fk Fs = Ok F' ->
  AntiOn B v (fun r => Rsum (map (fun f => f r) fs)) F'.
Proof.
  intros HA H rho Hr.
  assert (G : forall r, inB B r -> wd r F' /\ ev r F' = Rsum (map (ev r) Fs)).
  { intros r Hb. apply (g_sum _ _ (HS r Hb)) in H as [A1 A2]; auto.
    clear -HA Hb. induction HA; constructor; auto. now apply H. }
  split; [now apply G|]. apply (box_ext B v Ho rho (fun r => Rsum (map (ev r) Fs))); auto; [intros r Hb; now apply G|].
  clear -HA Hr. induction HA as [|f F fs Fs HF HA IH]; simpl.
  - apply (is_derive_const 0).
  - apply (is_derive_plus (fun t => ev (upd rho v t) F)); [now apply HF|exact IH].
Qed.
End Back.
