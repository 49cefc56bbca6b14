(** * TransMono: fuel, strictness and the guards never change a completed result of a transform. *)
From Coquelicot Require Import Coquelicot.
From Verif Require Export Trans.

Lemma cert_mono d1 d2 e : (forall t, d1 t = true -> d2 t = true) -> cert d1 e = true -> cert d2 e = true.
Proof.
  intros HD. induction e as [q| | | | |s| |ts IH|ts IH|b x IHb IHx|i b IHi IHb|f i IHi|i IHi] using expr_ind';
    cbn [cert]; auto.
  - intros H. rewrite forallb_forall in *. rewrite Forall_forall in IH. intros t Ht. auto.
  - intros H. apply andb_prop in H as [H H']. rewrite H', andb_true_r. rewrite forallb_forall in *.
    rewrite Forall_forall in IH. intros t Ht. auto.
  - intros H. apply andb_prop in H as [H H3]. apply andb_prop in H as [H1 H2]. rewrite IHb, IHx by auto. simpl.
    apply orb_prop in H3 as [H3|H3]; rewrite ?H3; auto. rewrite (HD _ H3). apply orb_true_r.
  - intros H. apply andb_prop in H as [H H3]. apply andb_prop in H as [H1 H2]. rewrite IHi, IHb by auto. simpl. auto.
  - intros H. apply andb_prop in H as [H1 H3]. rewrite IHi by auto. simpl.
    apply orb_prop in H3 as [H3|H3]; rewrite ?H3; auto. rewrite (HD _ H3). apply orb_true_r.
Qed.

Ltac tmono := repeat first [mono1 | apply catchA_mono].

Section Mono.
Context (f1 f2 : fkern) (HF : fle f1 f2) (r1 r2 : string -> expr -> bool)
  (HR : forall y u, r1 y u = true -> r2 y u = true).

Lemma sgd_mono {A} b1 b2 (x y : res A) : (b1 = true -> b2 = true) -> rle x y ->
  rle (guard (negb (k_strict f1) || b1) x) (guard (negb (k_strict f2) || b2) y).
Proof. intros H Hr. apply guard_mono; auto. now apply (negb_strict_mono f1 f2 HF). Qed.

Lemma pull_go_mono v l : forall p, rle (pull_go f1 v p l) (pull_go f2 v p l).
Proof. induction l as [|t l IH]; intros p; cbn [pull_go]; mono. Qed.
Lemma pull_const_mono v e : rle (pull_const f1 v e) (pull_const f2 v e).
Proof. unfold pull_const. destruct e; try apply rle_refl. apply pull_go_mono. Qed.

Lemma tcp_mono n m v e : (n <= m)%nat -> rle (to_const_polynomial f1 n v e) (to_const_polynomial f2 m v e).
Proof. now apply to_const_polynomial_mono. Qed.
#[local] Hint Resolve tcp_mono numdenF_mono expandable_mono expandE_mono factorE_mono replaceE_mono : mono.

Lemma poly_division_mono n m v e : (n <= m)%nat -> rle (poly_division f1 n v e) (poly_division f2 m v e).
Proof.
  intros H. pose proof (fun v a b => poly_div_mono f1 f2 HF n m v a b H). unfold poly_division.
  destruct (symbols e) as [|s [|]]; try apply rle_refl. destruct e; try apply rle_refl.
  destruct (negb _); tmono.
Qed.
Lemma expand_step_mono n m e : (n <= m)%nat -> rle (expand_step f1 n e) (expand_step f2 m e).
Proof. intros H. unfold expand_step. tmono. Qed.
Lemma dot2_mono r a b : rle (dot2 f1 r a b) (dot2 f2 r a b).
Proof. unfold dot2. tmono. Qed.
#[local] Hint Resolve dot2_mono : mono.
Lemma partial_fractions_mono n m v e : (n <= m)%nat -> rle (partial_fractions f1 n v e) (partial_fractions f2 m v e).
Proof.
  intros H. pose proof (invert_mono f1 f2 HF). unfold partial_fractions. destruct e; try apply rle_refl.
  tmono.
Qed.

Lemma usub_mono v y e u g : rle (usub f1 r1 v y e u g) (usub f2 r2 v y e u g).
Proof.
  unfold usub. apply sgd_mono; [|apply rle_refl]. unfold usub_guard. intros H.
  assert (C : forall t, cert (k_node f1) t = true -> cert (k_node f2) t = true)
    by (intros t; apply cert_mono; apply (fle_node _ _ HF)).
  rewrite !andb_true_iff in *. intuition.
Qed.
#[local] Hint Resolve usub_mono : mono.

Lemma linear_of_mono v e : rle (linear_of f1 v e) (linear_of f2 v e).
Proof.
  assert (HK : kle (k_raw f1) (k_raw f2)) by apply HF.
  unfold linear_of. destruct e; try apply rle_refl.
  - tmono. 
  - cbv zeta. tmono.
Qed.
#[local] Hint Resolve linear_of_mono : mono.
Lemma linear_check_mono v e : forall s, rle (linear_check f1 v e s) (linear_check f2 v e s).
Proof.
  induction e as [q| | | | |s0| |ts IH|ts IH|b x IHb IHx|i b IHi IHb|f i IHi|i IHi] using expr_ind'; intros s;
    cbn [linear_check]; (destruct (negb _); [apply rle_refl|]); (apply rle_bind; [tmono|intros [[u ic]|]]);
    try (destruct (fst s); mono; fail); try apply rle_refl; try (mono; fail).
  - clear -IH. revert s. induction IH as [|t l Ht Hl IHl]; intros s; tmono.
  - clear -IH. revert s. induction IH as [|t l Ht Hl IHl]; intros s; tmono.
Qed.
#[local] Hint Resolve linear_check_mono : mono.
Lemma diffE_mono' n m v e : (n <= m)%nat -> rle (diffE f1 n v e) (diffE f2 m v e).
Proof. now apply diffE_mono. Qed.
#[local] Hint Resolve diffE_mono' : mono.
Lemma linear_usub_mono n m v y e : (n <= m)%nat -> rle (linear_usub f1 r1 n v y e) (linear_usub f2 r2 m v y e).
Proof.
  intros H. unfold linear_usub. destruct (Nat.ltb _ _); [apply rle_refl|].
  apply rle_bind; [tmono|intros [b [u ic]]]. destruct b; [|apply rle_refl]. destruct u as [u|]; [|apply rle_refl].
  apply rle_bind; [tmono|intros du]. apply rle_bind; [|intros; mono].
  destruct ic as [c|]; [|tmono]. apply sgd_mono.
  - intros K. apply andb_prop in K as [K1 K2]. rewrite K2, (cert_mono (k_node f1) (k_node f2)); auto. apply fle_node; auto.
  - tmono. apply sgd_mono; [auto|tmono].
Qed.

Lemma poly_u_go_mono v l : forall p, rle (poly_u_go f1 v p l) (poly_u_go f2 v p l).
Proof. induction l as [|t l IH]; intros p; cbn [poly_u_go]; cbv zeta; tmono. Qed.
#[local] Hint Resolve poly_u_go_mono : mono.
Lemma poly_usub_mono n m v y e : (n <= m)%nat -> rle (poly_usub f1 r1 n v y e) (poly_usub f2 r2 m v y e).
Proof. intros H. unfold poly_usub. destruct e; try apply rle_refl. tmono. Qed.

Lemma sqrtE_mono' e : rle (sqrtE f1 e) (sqrtE f2 e).
Proof. apply sqrtE_mono. apply HF. Qed.
#[local] Hint Resolve sqrtE_mono' : mono.
Lemma trig_dy_mono f y : rle (trig_dy f1 f y) (trig_dy f2 f y).
Proof. unfold trig_dy. cbv zeta. tmono. Qed.
#[local] Hint Resolve trig_dy_mono : mono.
Lemma trig_usub_mono v y e : rle (trig_usub f1 r1 v y e) (trig_usub f2 r2 v y e).
Proof.
  unfold trig_usub. destruct (trig_key v e); [|apply rle_refl]. tmono. apply sgd_mono; [|tmono].
  unfold trig_sign. destruct t; auto; apply (fle_node _ _ HF).
Qed.

Lemma rewrite_trig_mono e : rle (rewrite_trig f1 e) (rewrite_trig f2 e).
Proof.
  unfold rewrite_trig. destruct (negb _); [apply rle_refl|].
  apply rle_bind. { apply replace_class_mono; auto. intros f. unfold to_sin_cos. destruct f; auto; intros; tmono. }
  intros a1. apply rle_bind. { apply replace_class_mono; auto. intros f. unfold to_csc_tan. destruct f; auto; intros; tmono. }
  intros a2. apply rle_bind. { apply replace_class_mono; auto. intros f. unfold to_sec_cot. destruct f; auto; intros; tmono. }
  intros a3. apply rle_bind; [|intros; apply rle_refl]. apply rle_filterM. intros a. tmono.
Qed.

Lemma inv_hit_mono f v e : rle (inv_hit f1 f v e) (inv_hit f2 f v e).
Proof. unfold inv_hit, inv_query. tmono. Qed.
#[local] Hint Resolve inv_hit_mono : mono.
Lemma inv_usub_mono v y e : rle (inv_usub f1 r1 v y e) (inv_usub f2 r2 v y e).
Proof. unfold inv_usub, inv_key. tmono. Qed.

Lemma simplify_step_mono e : rle (simplify_step f1 e) (simplify_step f2 e).
Proof.
  unfold simplify_step. apply rle_bind; [|intros []; apply rle_refl]. unfold kinder_replace. apply kinder_mono; auto.
  constructor; [|constructor]. intros. now apply pythagorean_mono.
Qed.

Lemma generic_go_mono v l : forall p, rle (generic_go f1 v p l) (generic_go f2 v p l).
Proof. induction l as [|t l IH]; intros p; cbn [generic_go]; tmono. Qed.
#[local] Hint Resolve generic_go_mono : mono.
Lemma generic_usub_mono n m v y e : (n <= m)%nat -> rle (generic_usub f1 r1 n v y e) (generic_usub f2 r2 m v y e).
Proof. intros H. unfold generic_usub. destruct e; try apply rle_refl. tmono. Qed.

Lemma gcontainsM_mono p1 p2 e : (forall t, rle (p1 t) (p2 t)) -> rle (gcontainsM p1 e) (gcontainsM p2 e).
Proof.
  intros HP. induction e as [q| | | | |s0| |ts IH|ts IH|b x IHb IHx|i b IHi IHb|f i IHi|i IHi] using expr_ind';
    cbn [gcontainsM]; (apply rle_bind; [apply HP|intros []; try apply rle_refl]); try (mono; fail).
  - induction IH as [|t l Ht Hl IHl]; tmono.
  - induction IH as [|t l Ht Hl IHl]; tmono.
Qed.
Lemma complete_square_mono n m v e : (n <= m)%nat -> rle (complete_square f1 n v e) (complete_square f2 m v e).
Proof.
  intros H. unfold complete_square. apply rle_bind.
  - apply gcontainsM_mono. intros t. unfold cts_condition. destruct t; try apply rle_refl. tmono.
  - intros []; [|apply rle_refl]. apply rle_bind; [|intros; apply rle_refl]. apply replace_factory_mono; auto.
    + intros t. tmono.
    + intros t. unfold cts_perform. tmono.
Qed.

Lemma pyth_perform_mono e : rle (pyth_perform f1 e) (pyth_perform f2 e).
Proof. unfold pyth_perform. tmono. Qed.
#[local] Hint Resolve pyth_perform_mono : mono.
Lemma rewrite_pyth_mono e : rle (rewrite_pyth f1 e) (rewrite_pyth f2 e).
Proof.
  unfold rewrite_pyth. apply rle_bind; [|intros []; apply rle_refl].
  induction e as [q| | | | |s0| |ts IH|ts IH|b x IHb IHx|i b IHi IHb|f i IHi|i IHi] using expr_ind';
    cbn [pyth_rewrite]; try (mono; fail).
  destruct (pyth_cond _); [tmono|]. apply rle_bind; [|intros []; mono].
  induction IH as [|t l Ht Hl IHl]; tmono.
Qed.
End Mono.
