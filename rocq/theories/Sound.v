(** * Sound: the constructors preserve real values (strict mode). *)
From Verif Require Export Kernel RealLemmas.
Open Scope R_scope.

Record Sound (k : kern) : Prop := {
  s_sum : forall rho ts e, k_sum k ts = Ok e -> Forall (wd rho) ts ->
    wd rho e /\ ev rho e = Rsum (map (ev rho) ts);
  s_prod : forall rho ts e, k_prod k ts = Ok e -> Forall (wd rho) ts ->
    wd rho e /\ ev rho e = Rprod (map (ev rho) ts);
  s_pow : forall rho b x e, k_pow k b x = Ok e -> wd rho b -> wd rho x -> pdom rho b x ->
    wd rho e /\ ev rho e = rpow (ev rho b) (ev rho x);
  s_abs : forall rho i e, k_abs k i = Ok e -> wd rho i ->
    wd rho e /\ ev rho e = Rabs (ev rho i)
}.

(** ** Equality *)
Lemma qeqb_eq p q : qeqb p q = true -> p = q.
Proof.
  unfold qeqb. destruct p, q; simpl. intros H. apply andb_prop in H as [H1 H2].
  apply Z.eqb_eq in H1. apply Pos.eqb_eq in H2. now subst.
Qed.
Lemma qeqb_refl p : qeqb p p = true.
Proof. unfold qeqb. now rewrite Z.eqb_refl, Pos.eqb_refl. Qed.
Lemma trig_eqb_eq f g : trig_eqb f g = true -> f = g.
Proof. destruct f, g; simpl; congruence. Qed.

Lemma eeqb_sum l m : eeqb (ESum l) (ESum m) = eeqbl l m.
Proof. revert m; induction l as [|a l IH]; intros [|b m]; simpl in *; auto; try (now rewrite IH). Qed.
Lemma eeqb_prod l m : eeqb (EProd l) (EProd m) = eeqbl l m.
Proof. revert m; induction l as [|a l IH]; intros [|b m]; simpl in *; auto; try (now rewrite IH). Qed.
Lemma coin_sum l m : coin (ESum l) (ESum m) = coinl l m.
Proof. revert m; induction l as [|a l IH]; intros [|b m]; simpl in *; auto; try (now rewrite IH). Qed.
Lemma coin_prod l m : coin (EProd l) (EProd m) = coinl l m.
Proof. revert m; induction l as [|a l IH]; intros [|b m]; simpl in *; auto; try (now rewrite IH). Qed.

Lemma eqbl_of l : Forall (fun a => forall b, coin a b = false -> eeqb a b = true -> a = b) l ->
  forall m, coinl l m = false -> eeqbl l m = true -> l = m.
Proof.
  induction 1 as [|a l Ha Hl IH]; intros [|b m]; simpl; try congruence.
  intros Hc He. apply orb_false_elim in Hc as [Hc1 Hc2]. apply andb_prop in He as [He1 He2].
  f_equal; auto.
Qed.

Lemma eqb_coin a : forall b, coin a b = false -> eeqb a b = true -> a = b.
Proof.
  induction a using expr_ind'; intros b'; destruct b';
    try (simpl; intros; congruence).
  - simpl; intros _ Hq. apply qeqb_eq in Hq. congruence.
  - simpl; intros _ He. apply String.eqb_eq in He; congruence.
  - simpl; intros _ He. apply String.eqb_eq in He; congruence.
  - rewrite coin_sum, eeqb_sum. intros; f_equal. eapply eqbl_of; eauto.
  - rewrite coin_prod, eeqb_prod. intros; f_equal. eapply eqbl_of; eauto.
  - simpl. intros Hc He. apply orb_false_elim in Hc as [Hc1 Hc2]. apply andb_prop in He as [He1 He2].
    f_equal; auto.
  - simpl. intros Hc He. apply orb_false_elim in Hc as [Hc1 Hc2]. apply andb_prop in He as [He1 He2].
    f_equal; auto.
  - simpl. intros Hc He. apply andb_prop in He as [He1 He2]. apply trig_eqb_eq in He1. subst.
    f_equal; auto.
  - simpl. intros Hc He. f_equal; auto.
Qed.
Lemma eqbl_coinl l m : coinl l m = false -> eeqbl l m = true -> l = m.
Proof. apply eqbl_of. apply Forall_forall. intros; now apply eqb_coin. Qed.

Lemma isq_true e q : isq e q = true -> exists p, e = ERat p /\ Q2R p = Q2R q.
Proof. destruct e; simpl; try discriminate. intros H. eauto using Qeq_bool_true. Qed.
Lemma isq_ev rho e q : isq e q = true -> ev rho e = Q2R q.
Proof. intros H; apply isq_true in H as (p & -> & H); auto. Qed.

Lemma acc_wd rho e : is_acc e = true -> wd rho e -> exists q, e = ERat q.
Proof. destruct e; simpl; try discriminate; try tauto; eauto. Qed.
Lemma acc_wd_l rho cs : Forall (fun e => is_acc e = true) cs -> Forall (wd rho) cs ->
  Forall (fun e => exists q, e = ERat q) cs.
Proof.
  intros H1 H2. rewrite Forall_forall in *. intros e He. eapply acc_wd; eauto.
Qed.

Lemma foldM_val_add rho cs : Forall (fun e => exists q, e = ERat q) cs -> forall a e,
  foldM val_add cs (ERat a) = Ok e ->
  exists q, e = ERat q /\ Q2R q = Q2R a + Rsum (map (ev rho) cs).
Proof.
  induction 1 as [|t l Ht Hl IH]; simpl; intros a e H.
  - inv_ok. exists a; split; auto. ring.
  - destruct Ht as [q ->]. simpl in H. apply IH in H as (q' & -> & H).
    exists q'; split; auto. rewrite H. unfold rat. rewrite Q2R_red, Q2R_plus. simpl; ring.
Qed.
Lemma foldM_val_mul rho cs : Forall (fun e => exists q, e = ERat q) cs -> forall a e,
  foldM val_mul cs (ERat a) = Ok e ->
  exists q, e = ERat q /\ Q2R q = Q2R a * Rprod (map (ev rho) cs).
Proof.
  induction 1 as [|t l Ht Hl IH]; simpl; intros a e H.
  - inv_ok. exists a; split; auto. ring.
  - destruct Ht as [q ->]. simpl in H. apply IH in H as (q' & -> & H).
    exists q'; split; auto. rewrite H. unfold rat. rewrite Q2R_red, Q2R_mult. simpl; ring.
Qed.
Lemma acc_sum_sound rho cs e : Forall (fun e => exists q, e = ERat q) cs ->
  acc_sum cs = Ok e -> exists q, e = ERat q /\ Q2R q = Rsum (map (ev rho) cs).
Proof.
  intros HF H. unfold acc_sum in H.
  assert (G : foldM val_add cs (ERat 0) = Ok e ->
      exists q, e = ERat q /\ Q2R q = Rsum (map (ev rho) cs)).
  { intros G. apply (foldM_val_add rho) in G; auto. destruct G as (q & -> & G).
    exists q; split; auto. rewrite G, Q2R_0. ring. }
  destruct cs as [|t [|u cs]]; auto. inv_ok. inversion HF as [|? ? [q ->] ?]; subst.
  exists q; split; auto. simpl; ring.
Qed.
Lemma acc_prod_sound rho cs e : Forall (fun e => exists q, e = ERat q) cs ->
  acc_prod cs = Ok e -> exists q, e = ERat q /\ Q2R q = Rprod (map (ev rho) cs).
Proof.
  intros HF H. unfold acc_prod in H.
  assert (G : foldM val_mul cs (ERat 1) = Ok e ->
      exists q, e = ERat q /\ Q2R q = Rprod (map (ev rho) cs)).
  { intros G. apply (foldM_val_mul rho) in G; auto. destruct G as (q & -> & G).
    exists q; split; auto. rewrite G, Q2R_1. ring. }
  destruct cs as [|t [|u cs]]; auto. inv_ok. inversion HF as [|? ? [q ->] ?]; subst.
  exists q; split; auto. simpl; ring.
Qed.

Lemma Rprod_filter rho p ts :
  Rprod (map (ev rho) ts) =
  Rprod (map (ev rho) (filter p ts)) * Rprod (map (ev rho) (filter (fun t => negb (p t)) ts)).
Proof.
  induction ts as [|t l IH]; simpl; [ring|]. rewrite IH.
  destruct (p t); simpl; ring.
Qed.
Lemma Forall_filter {A} (P : A -> Prop) p l : Forall P l -> Forall P (filter p l).
Proof.
  rewrite !Forall_forall. intros H x Hx. apply filter_In in Hx as [Hx _]. auto.
Qed.
Lemma filter_all {A} p (l : list A) : Forall (fun x => p x = true) (filter p l).
Proof. apply Forall_forall. intros x Hx. now apply filter_In in Hx as [_ Hx]. Qed.

Lemma decon_prod_sound rho e cs ncf : decon_prod e = (cs, ncf) -> wd rho e ->
  (exists q, cs = [ERat q] /\ ev rho e = Q2R q * Rprod (map (ev rho) ncf)) /\
  Forall (wd rho) ncf /\ (is_acc e = false -> Forall (fun t => is_acc t = false) ncf).
Proof.
  intros H Hw.
  assert (D : forall e', (cs, ncf) = ([ERat 1], [e']) -> wd rho e' -> e = e' ->
    (exists q, cs = [ERat q] /\ ev rho e = Q2R q * Rprod (map (ev rho) ncf)) /\
    Forall (wd rho) ncf /\ (is_acc e = false -> Forall (fun t => is_acc t = false) ncf)).
  { intros e' [= -> ->] Hw' <-. repeat split; auto.
    exists 1%Q; split; auto. simpl. rewrite Q2R_1. ring. }
  destruct e; simpl in H; symmetry in H; try (eapply D; eauto; fail).
  injection H as -> ->. clear D. apply wd_prod in Hw as [Hw H1].
  split; [|split].
  - unfold one_const in H1.
    pose proof (acc_wd_l rho _ (filter_all is_acc ts) (Forall_filter _ is_acc _ Hw)) as Ha.
    destruct (filter is_acc ts) as [|t [|u l]] eqn:E; simpl in H1; [| |lia].
    + exists 1%Q; split; auto. cbn [ev]. rewrite (Rprod_filter rho is_acc), E. simpl. rewrite Q2R_1; ring.
    + inversion Ha as [|? ? [q ->] ?]; subst. exists q; split; auto.
      cbn [ev]. rewrite (Rprod_filter rho is_acc), E. simpl. ring.
  - now apply Forall_filter.
  - intros _. apply Forall_forall. intros x Hx. apply filter_In in Hx as [_ Hx].
    now apply negb_true_iff.
Qed.

Lemma prod_skip_sound rho ts e : prod_skip ts = Ok e -> Forall (wd rho) ts -> one_const ts ->
  wd rho e /\ ev rho e = Rprod (map (ev rho) ts).
Proof.
  intros H Hw H1. destruct ts as [|t [|u l]]; simpl in H.
  - inv_ok. simpl; split; auto. apply Q2R_1.
  - destruct t; inv_ok; inversion Hw; subst; split; auto; simpl; ring.
  - assert (E : EProd (t :: u :: l) = e) by (destruct t; inv_ok; auto). subst e. clear H.
    split; [apply wd_prod; auto | reflexivity].
Qed.
Lemma one_const_none ts : Forall (fun t => is_acc t = false) ts -> filter is_acc ts = [].
Proof. induction 1 as [|t l H Hl IH]; simpl; auto. now rewrite H. Qed.

(** ** Flattening *)
Lemma flat_sum1_sound rho e : wd rho e ->
  Forall (wd rho) (flat_sum1 e) /\ Rsum (map (ev rho) (flat_sum1 e)) = ev rho e.
Proof.
  induction e as [| | | | | | |ts IH| | | | |] using expr_ind'; intros Hw;
    try (cbn [flat_sum1 map Rsum fold_right]; split; [auto | ring]).
  apply wd_sum in Hw. cbn [flat_sum1 ev].
  induction ts as [|t l IHl]; simpl; auto.
  inversion IH; subst. inversion Hw; subst.
  destruct IHl as [A1 A2]; auto. destruct H1 as [B1 B2]; auto.
  split; [apply Forall_app; auto|]. rewrite map_app, Rsum_app, A2, B2. reflexivity.
Qed.
Lemma flat_sum_sound rho ts : Forall (wd rho) ts ->
  Forall (wd rho) (flat_sum ts) /\ Rsum (map (ev rho) (flat_sum ts)) = Rsum (map (ev rho) ts).
Proof.
  induction 1 as [|t l Ht Hl [A1 A2]]; simpl; auto.
  destruct (flat_sum1_sound rho t Ht) as [B1 B2].
  split; [apply Forall_app; auto|]. rewrite map_app, Rsum_app, B2. f_equal. exact A2.
Qed.
Lemma flat_prod1_sound rho e : wd rho e ->
  Forall (wd rho) (flat_prod1 e) /\ Rprod (map (ev rho) (flat_prod1 e)) = ev rho e.
Proof.
  induction e as [| | | | | | | |ts IH| | | |] using expr_ind'; intros Hw;
    try (cbn [flat_prod1 map Rprod fold_right]; split; [auto | ring]).
  apply wd_prod in Hw as [Hw _]. cbn [flat_prod1 ev].
  induction ts as [|t l IHl]; simpl; auto.
  inversion IH; subst. inversion Hw; subst.
  destruct IHl as [A1 A2]; auto. destruct H1 as [B1 B2]; auto.
  split; [apply Forall_app; auto|]. rewrite map_app, Rprod_app, A2, B2. reflexivity.
Qed.
Lemma flat_prod_sound rho ts : Forall (wd rho) ts ->
  Forall (wd rho) (flat_prod ts) /\ Rprod (map (ev rho) (flat_prod ts)) = Rprod (map (ev rho) ts).
Proof.
  induction 1 as [|t l Ht Hl [A1 A2]]; simpl; auto.
  destruct (flat_prod1_sound rho t Ht) as [B1 B2].
  split; [apply Forall_app; auto|]. rewrite map_app, Rprod_app, B2. f_equal. exact A2.
Qed.

(** ** Sorting *)
Lemma insert_perm k x l l' : insert_term k x l = Ok l' -> Permutation (x :: l) l'.
Proof.
  revert l'; induction l as [|y l IH]; simpl; intros l' H; [inv_ok; auto|].
  apply bind_ok in H as (b & Hb & H). destruct b; [inv_ok; auto|].
  apply bind_ok in H as (r & Hr & H). inv_ok. apply IH in Hr. rewrite perm_swap. now constructor.
Qed.
Lemma sort_perm k l l' : sort_terms k l = Ok l' -> Permutation l l'.
Proof.
  unfold sort_terms. enough (forall acc, foldM (fun acc x => insert_term k x acc) l acc = Ok l' ->
    Permutation (acc ++ l) l') as E by (intros H; apply (E []); auto).
  induction l as [|a l IH]; simpl; intros acc H; inv_ok.
  - rewrite app_nil_r; auto.
  - apply insert_perm in H0. apply IH in H. rewrite <- H.
    rewrite <- H0. rewrite <- Permutation_middle. reflexivity.
Qed.
Lemma Forall_perm {A} (P : A -> Prop) l m : Permutation l m -> Forall P l -> Forall P m.
Proof. intros HP HF. rewrite Forall_forall in *. intros x Hx. apply HF.
  eapply Permutation_in; [symmetry; eauto|auto]. Qed.
Lemma one_const_perm l m : Permutation l m -> one_const l -> one_const m.
Proof.
  unfold one_const. intros HP H.
  enough (List.length (filter is_acc l) = List.length (filter is_acc m)) by lia.
  apply Permutation_length. clear H. induction HP; simpl; auto.
  - destruct (is_acc x); auto.
  - destruct (is_acc x), (is_acc y); auto. apply perm_swap.
  - etransitivity; eauto.
Qed.

Section Step.
Context (c : cfg) (k : kern) (Hstrict : strict c = true) (Hf : fpow_exact (fpow c)) (HS : Sound k).

Lemma py_eq_true a b : py_eq c a b = Ok true -> a = b.
Proof.
  unfold py_eq. rewrite Hstrict; simpl. destruct (coin a b) eqn:E; [discriminate|].
  intros H; inv_ok. now apply eqb_coin.
Qed.
Lemma py_eql_true a b : py_eql c a b = Ok true -> a = b.
Proof.
  unfold py_eql. rewrite Hstrict; simpl. destruct (coinl a b) eqn:E; [discriminate|].
  intros H; inv_ok. now apply eqbl_coinl.
Qed.

(** ** Operators *)
Lemma op_add_sound rho a b e : op_add k a b = Ok e -> wd rho a -> wd rho b ->
  wd rho e /\ ev rho e = ev rho a + ev rho b.
Proof.
  intros H Ha Hb. unfold op_add in H.
  assert (G : k_sum k [a; b] = Ok e -> wd rho e /\ ev rho e = ev rho a + ev rho b).
  { intros G. apply (s_sum k HS rho) in G; auto. destruct G as [G1 G2]; split; auto.
    rewrite G2; simpl; ring. }
  destruct a; auto. destruct b; auto. inv_ok. split; simpl; auto.
  rewrite Q2R_red, Q2R_plus; auto.
Qed.
Lemma op_mul_sound rho a b e : op_mul k a b = Ok e -> wd rho a -> wd rho b ->
  wd rho e /\ ev rho e = ev rho a * ev rho b.
Proof.
  intros H Ha Hb. unfold op_mul in H.
  assert (G : k_prod k [a; b] = Ok e -> wd rho e /\ ev rho e = ev rho a * ev rho b).
  { intros G. apply (s_prod k HS rho) in G; auto. destruct G as [G1 G2]; split; auto.
    rewrite G2; simpl; ring. }
  destruct a; auto. destruct b; auto. inv_ok. split; simpl; auto.
  rewrite Q2R_red, Q2R_mult; auto.
Qed.
Lemma op_sub_sound rho a b e : op_sub k a b = Ok e -> wd rho a -> wd rho b ->
  wd rho e /\ ev rho e = ev rho a - ev rho b.
Proof.
  intros H Ha Hb. unfold op_sub in H.
  assert (G : (m <- op_mul k (ERat (-1)) b;; op_add k a m) = Ok e ->
     wd rho e /\ ev rho e = ev rho a - ev rho b).
  { intros G; inv_ok. apply (op_mul_sound rho) in H0 as [H1 H2]; simpl; auto.
    apply (op_add_sound rho) in G as [G1 G2]; auto. split; auto. rewrite G2, H2. simpl.
    rewrite Q2R_m1. ring. }
  destruct a; auto. destruct b; auto. inv_ok. split; simpl; auto.
  rewrite Q2R_red, Q2R_minus; auto.
Qed.

Lemma pdom_m1 rho b : ev rho b <> 0 -> pdom rho b (ERat (-1)).
Proof. intros H. left. exists (-1)%Q. repeat split; auto. Qed.

Lemma op_div_sound rho a b e : op_div k a b = Ok e -> wd rho a -> wd rho b -> ev rho b <> 0 ->
  wd rho e /\ ev rho e = ev rho a / ev rho b.
Proof.
  intros H Ha Hb Hn. unfold op_div in H.
  assert (G : (i <- k_pow k b (ERat (-1));; k_prod k [a; i]) = Ok e ->
     wd rho e /\ ev rho e = ev rho a / ev rho b).
  { intros G; inv_ok. apply (s_pow k HS rho) in H0 as [H1 H2]; simpl; auto using pdom_m1.
    apply (s_prod k HS rho) in G as [G1 G2]; auto. split; auto. rewrite G2. simpl. rewrite H2.
    simpl. rewrite Q2R_m1, rpow_m1; auto. unfold Rdiv; ring. }
  destruct a; auto. destruct b; auto. destruct (qis0 q0) eqn:E; auto. inv_ok. split; simpl; auto.
  rewrite Q2R_red. apply Q2R_div. intros Hz. apply qis0_false in E. apply E.
  rewrite (Qeq_eqR _ _ Hz), Q2R_0; auto.
Qed.

Lemma neg_default rho e r : op_mul k (ERat (-1)) e = Ok r -> wd rho e ->
  wd rho r /\ ev rho r = - ev rho e.
Proof.
  intros H Hw. apply (op_mul_sound rho) in H as [H1 H2]; simpl; auto.
  split; auto. rewrite H2; simpl; rewrite Q2R_m1; ring.
Qed.

Lemma op_neg_sound rho e : forall r, op_neg k e = Ok r -> wd rho e ->
  wd rho r /\ ev rho r = - ev rho e.
Proof.
  induction e as [q| | | | | | |ts IH| | | | |] using expr_ind'; intros r Hr Hw;
    try (apply neg_default; auto; fail); cbn [op_neg] in Hr.
  - destruct Hw.
  - destruct Hw.
  - apply bind_ok in Hr as (ts' & Hts & Hr). apply wd_sum in Hw.
    assert (G : Forall (wd rho) ts' /\ Rsum (map (ev rho) ts') = - Rsum (map (ev rho) ts)).
    { clear Hr. revert ts' Hts. induction ts as [|t l IHl]; intros ts' Hts.
      - inv_ok. split; auto. simpl; ring.
      - inversion IH as [|? ? I1 I2]; subst. inversion Hw as [|? ? W1 W2]; subst.
        apply bind_ok in Hts as (t' & Ht' & Hts). apply bind_ok in Hts as (l' & Hl' & Hts). inv_ok.
        apply I1 in Ht' as [A1 A2]; auto. eapply IHl in Hl' as [B1 B2]; auto.
        split; auto. simpl. rewrite A2, B2. ring. }
    destruct G as [G1 G2]. apply (s_sum k HS rho) in Hr as [H1 H2]; auto.
    split; auto. rewrite H2, G2. reflexivity.
Qed.

(** ** Sum *)
Lemma split_like_sound rho ncf l : forall hits rest, split_like c ncf l = Ok (hits, rest) ->
  Forall (wd rho) l ->
  Forall (fun e => exists q, e = ERat q) hits /\ Forall (wd rho) rest /\
  Rsum (map (ev rho) l) =
    Rsum (map (ev rho) hits) * Rprod (map (ev rho) ncf) + Rsum (map (ev rho) rest) /\
  (List.length rest <= List.length l)%nat.
Proof.
  induction l as [|t l IH]; cbn [split_like]; intros hits rest H Hw.
  - inv_ok. repeat split; auto. simpl; ring.
  - destruct (decon_prod t) as [cs ncf2] eqn:D. inversion Hw as [|? ? Ht Hl]; subst.
    inv_ok. destruct x0 as [h r]. apply IH in H1 as (A1 & A2 & A3 & A4); auto.
    apply (decon_prod_sound rho) in D as ((q & -> & D1) & D2 & D3); auto.
    destruct x; inv_ok.
    + apply py_eql_true in H0. subst ncf2.
      repeat split; auto.
      * constructor; eauto.
      * simpl. rewrite A3, D1. ring.
      * simpl; lia.
    + repeat split; auto.
      * simpl. rewrite A3. ring.
      * simpl; lia.
Qed.

Lemma combine_sum_go_sound rho n : forall l nc cs, combine_sum_go c n l = Ok (nc, cs) ->
  Forall (wd rho) l ->
  Forall (wd rho) nc /\ Forall (fun e => exists q, e = ERat q) cs /\
  Rsum (map (ev rho) l) = Rsum (map (ev rho) nc) + Rsum (map (ev rho) cs).
Proof.
  induction n as [|n IH]; intros l nc cs H Hw.
  - destruct l; simpl in H; inv_ok. repeat split; auto. simpl; ring.
  - destruct l as [|t r]; cbn [combine_sum_go] in H.
    { inv_ok. repeat split; auto. simpl; ring. }
    inversion Hw as [|? ? Ht Hr]; subst.
    destruct (is_acc t) eqn:Ea.
    + inv_ok. destruct x as [nc' cs']. inv_ok. apply IH in H0 as (A1 & A2 & A3); auto.
      repeat split; auto.
      * constructor; auto. eapply acc_wd; eauto.
      * simpl. rewrite A3. ring.
    + destruct (decon_prod t) as [coeffs ncf] eqn:D. inv_ok. destruct x as [hits rest].
      inv_ok. destruct x as [nc' cs'].
      apply (split_like_sound rho) in H0 as (B1 & B2 & B3 & _); auto.
      apply IH in H1 as (A1 & A2 & A3); auto.
      apply (decon_prod_sound rho) in D as ((q & -> & D1) & D2 & D3); auto.
      specialize (D3 Ea).
      destruct hits as [|h hits].
      * inv_ok. repeat split; auto. simpl in *. rewrite B3, A3. ring.
      * inv_ok. destruct (acc_sum_sound rho ([ERat q] ++ h :: hits) x) as (s & -> & Hs); auto.
        { simpl; constructor; eauto. }
        assert (V : Rsum (map (ev rho) (t :: r)) =
          Q2R s * Rprod (map (ev rho) ncf) + Rsum (map (ev rho) nc') + Rsum (map (ev rho) cs')).
        { rewrite Hs. simpl. rewrite B3, A3, D1. simpl; ring. }
        destruct (isq (ERat s) 0) eqn:E0; [|destruct (isq (ERat s) 1) eqn:E1].
        -- inv_ok. repeat split; auto. rewrite V.
           apply (isq_ev rho) in E0. simpl in E0. rewrite E0, Q2R_0. ring.
        -- inv_ok. apply (prod_skip_sound rho) in H1 as [P1 P2]; auto.
           2:{ unfold one_const. rewrite one_const_none; auto. }
           repeat split; auto. rewrite V. simpl. rewrite P2.
           apply (isq_ev rho) in E1. simpl in E1. rewrite E1, Q2R_1. ring.
        -- inv_ok. apply (prod_skip_sound rho) in H1 as [P1 P2].
           2:{ constructor; simpl; auto. }
           2:{ unfold one_const. simpl. rewrite one_const_none; auto. }
           repeat split; auto. rewrite V. simpl. rewrite P2. simpl. ring.
Qed.

Lemma combine_sum_sound rho l nc : combine_sum c l = Ok nc -> Forall (wd rho) l ->
  Forall (wd rho) nc /\ Rsum (map (ev rho) l) = Rsum (map (ev rho) nc).
Proof.
  unfold combine_sum. intros H Hw. inv_ok. destruct x as [nc0 cs].
  apply (combine_sum_go_sound rho) in H0 as (A1 & A2 & A3); auto.
  destruct cs as [|t cs].
  - inv_ok. split; auto. rewrite A3; simpl; ring.
  - inv_ok. apply (acc_sum_sound rho) in H0 as (q & -> & Hq); auto.
    destruct (isq (ERat q) 0) eqn:E0; inv_ok.
    + split; auto. rewrite A3, <- Hq. apply (isq_ev rho) in E0. simpl in E0. rewrite E0, Q2R_0; ring.
    + split.
      * apply Forall_app; split; auto. constructor; simpl; auto.
      * rewrite map_app, Rsum_app. rewrite A3, <- Hq. simpl. ring.
Qed.

Lemma sum_body_sound rho ts e : sum_body c k ts = Ok e -> Forall (wd rho) ts ->
  wd rho e /\ ev rho e = Rsum (map (ev rho) ts).
Proof.
  unfold sum_body. intros H Hw. inv_ok.
  destruct (flat_sum_sound rho ts Hw) as [F1 F2].
  apply (combine_sum_sound rho) in H0 as [A1 A2]; auto.
  rewrite <- F2, A2.
  destruct x as [|t [|u l]]; inv_ok.
  - split; simpl; auto. apply Q2R_0.
  - inversion A1; subst. split; auto. simpl; ring.
  - apply sort_perm in H0.
    assert (P : Permutation (t :: u :: l) (rev x)) by (rewrite H0; apply Permutation_rev).
    split.
    + apply wd_sum. eapply Forall_perm; eauto.
    + cbn [ev]. symmetry. apply Rsum_perm, Permutation_map, P.
Qed.

(** ** Prod *)
Lemma pdom_1 rho b : pdom rho b (ERat 1).
Proof. left. exists 1%Q. repeat split; auto. right. discriminate. Qed.

Lemma decon_pow_sound rho t b x : decon_pow t = (b, x) -> wd rho t ->
  wd rho b /\ wd rho x /\ pdom rho b x /\ ev rho t = rpow (ev rho b) (ev rho x).
Proof.
  intros H Hw.
  assert (D : (t, ERat 1) = (b, x) ->
     wd rho b /\ wd rho x /\ pdom rho b x /\ ev rho t = rpow (ev rho b) (ev rho x)).
  { intros [= <- <-]. repeat split; simpl; auto using pdom_1. now rewrite Q2R_1, rpow_1. }
  destruct t; try (apply D; exact H). simpl in H. injection H as <- <-.
  simpl in Hw. destruct Hw as (A & B & C). repeat split; auto.
Qed.

Lemma rp_gt0 rho b : rp rho b -> 0 < ev rho b.
Proof. intros H. apply rp_unfold in H. tauto. Qed.

Lemma pdom_rp_or rho b x : pdom rho b x ->
  (exists n, ev rho x = IZR n /\ (ev rho b <> 0 \/ (0 <= n)%Z) /\
             exists q, x = ERat q /\ qisint q = true /\ numer q = n) \/ rp rho b.
Proof.
  intros [(q & -> & Hi & H)|H]; auto. left. exists (numer q). simpl.
  rewrite (qisint_Q2R _ Hi). repeat split; auto.
  - destruct H as [H|H]; auto. right. apply Q2R_nonneg in H. rewrite (qisint_Q2R _ Hi) in H.
    now apply le_IZR.
  - eauto.
Qed.

Lemma pdom_int rho b q n : Q2R q = IZR n -> (ev rho b <> 0 \/ (0 <= n)%Z) -> pdom rho b (ERat q).
Proof.
  intros Hq H. left. exists q. destruct (qisint_Z _ _ Hq) as [H1 H2].
  repeat split; auto. destruct H as [H|H]; auto. right. apply Q2R_nonneg. rewrite Hq.
  now apply IZR_le.
Qed.

Lemma expo_add rho b x1 x2 x : op_add k x1 x2 = Ok x -> wd rho x1 -> wd rho x2 ->
  pdom rho b x1 -> pdom rho b x2 ->
  wd rho x /\ pdom rho b x /\
  rpow (ev rho b) (ev rho x) = rpow (ev rho b) (ev rho x1) * rpow (ev rho b) (ev rho x2).
Proof.
  intros H W1 W2 P1 P2. destruct (op_add_sound rho _ _ _ H W1 W2) as [W E].
  split; auto.
  assert (R : rp rho b -> pdom rho b x /\
    rpow (ev rho b) (ev rho x) = rpow (ev rho b) (ev rho x1) * rpow (ev rho b) (ev rho x2)).
  { intros R. split; [right; auto|]. rewrite E. apply rpow_plus. now apply rp_gt0. }
  apply pdom_rp_or in P1 as [(n1 & E1 & N1 & q1 & Q1 & I1 & _)|P1]; auto.
  apply pdom_rp_or in P2 as [(n2 & E2 & N2 & q2 & Q2 & I2 & _)|P2]; auto.
  clear R. subst x1 x2. simpl in H. inv_ok. simpl in E.
  assert (G : ev rho b <> 0 \/ (0 <= n1 + n2)%Z) by (destruct N1, N2; auto; right; lia).
  simpl in E1, E2.
  split.
  - apply (pdom_int rho b _ (n1 + n2)); auto. rewrite E, E1, E2. now rewrite plus_IZR.
  - simpl. rewrite E, E1, E2. rewrite <- plus_IZR. rewrite !rpow_int; auto.
    apply powerRZ_plus. destruct N1, N2; auto.
Qed.

Lemma split_base_sound rho base l : forall expo h ex rest,
  split_base c k base expo l = Ok (h, ex, rest) -> Forall (wd rho) l ->
  wd rho expo -> pdom rho base expo ->
  Forall (wd rho) rest /\ wd rho ex /\ pdom rho base ex /\
  rpow (ev rho base) (ev rho expo) * Rprod (map (ev rho) l) =
  rpow (ev rho base) (ev rho ex) * Rprod (map (ev rho) rest) /\ (h = false -> ex = expo).
Proof.
  induction l as [|t l IH]; cbn [split_base]; intros expo h ex rest H Hw We Pe.
  - inv_ok. repeat split; auto.
  - destruct (decon_pow t) as [ob oe] eqn:D. inversion Hw as [|? ? Ht Hl]; subst.
    apply (decon_pow_sound rho) in D as (D1 & D2 & D3 & D4); auto.
    inv_ok. destruct x; inv_ok.
    + apply py_eq_true in H0. subst ob. destruct x0 as [[h' ex'] rest']. inv_ok.
      destruct (expo_add rho base expo oe x) as (X1 & X2 & X3); auto.
      apply IH in H2 as (A1 & A2 & A3 & A4 & _); auto.
      repeat split; auto; [|discriminate]. simpl. rewrite <- A4, X3, D4. ring.
    + destruct x as [[h' ex'] rest']. inv_ok. apply IH in H1 as (A1 & A2 & A3 & A4 & A5); auto.
      repeat split; auto. simpl.
      transitivity (ev rho t * (rpow (ev rho base) (ev rho expo) * Rprod (map (ev rho) l))).
      { simpl; ring. }
      rewrite A4. ring.
Qed.

Definition pgood (rho : env) (v : R) (p : list expr * list expr) : Prop :=
  Forall (wd rho) (fst p) /\ Forall (fun t => is_acc t = false) (fst p) /\
  Forall (fun e => exists q, e = ERat q) (snd p) /\
  v = Rprod (map (ev rho) (fst p)) * Rprod (map (ev rho) (snd p)).

Lemma add_term_sound rho t v p : pgood rho v p -> wd rho t -> pgood rho (ev rho t * v) (add_term t p).
Proof.
  intros (A & B & C & D) Hw. unfold add_term. destruct (is_acc t) eqn:E; unfold pgood; simpl.
  - repeat split; auto.
    + constructor; auto. eapply acc_wd; eauto.
    + rewrite D. ring.
  - repeat split; auto. rewrite D; ring.
Qed.

Lemma combine_prod_go_sound rho n : forall l p, combine_prod_go c k n l = Ok p ->
  Forall (wd rho) l -> pgood rho (Rprod (map (ev rho) l)) p.
Proof.
  induction n as [|n IH]; intros l p H Hw.
  - destruct l; simpl in H; inv_ok. unfold pgood; simpl. repeat split; auto. ring.
  - destruct l as [|t r]; cbn [combine_prod_go] in H.
    { inv_ok. unfold pgood; simpl. repeat split; auto. ring. }
    inversion Hw as [|? ? Ht Hr]; subst.
    destruct (decon_pow t) as [base expo] eqn:D. inv_ok. destruct x as [[h ex] rest].
    apply (decon_pow_sound rho) in D as (D1 & D2 & D3 & D4); auto.
    apply (split_base_sound rho) in H0 as (A1 & A2 & A3 & A4 & A5); auto.
    destruct h.
    + assert (V : Rprod (map (ev rho) (t :: r)) =
        rpow (ev rho base) (ev rho ex) * Rprod (map (ev rho) rest)).
      { simpl. rewrite D4. apply A4. }
      destruct (isq ex 0) eqn:E0; [|destruct (isq ex 1) eqn:E1].
      * apply IH in H; auto. rewrite V. rewrite (isq_ev rho _ _ E0), Q2R_0, rpow_0.
        now rewrite Rmult_1_l.
      * inv_ok. apply IH in H0; auto. rewrite V. rewrite (isq_ev rho _ _ E1), Q2R_1, rpow_1.
        now apply add_term_sound.
      * inv_ok. apply (s_pow k HS rho) in H0 as [P1 P2]; auto. apply IH in H1; auto.
        rewrite V, <- P2. now apply add_term_sound.
    + inv_ok. apply IH in H0; auto. rewrite A5 in A4 by auto.
      simpl. specialize (A5 eq_refl). subst ex.
      replace (ev rho t * Rprod (map (ev rho) r)) with (ev rho t * Rprod (map (ev rho) rest)).
      * apply add_term_sound; auto.
      * rewrite D4. symmetry. apply A4.
Qed.

Lemma combine_prod_sound rho l nc : combine_prod c k l = Ok nc -> Forall (wd rho) l ->
  Forall (wd rho) nc /\ one_const nc /\ Rprod (map (ev rho) l) = Rprod (map (ev rho) nc).
Proof.
  unfold combine_prod. intros H Hw. inv_ok. destruct x as [nc0 cs].
  apply (combine_prod_go_sound rho) in H0 as (A & B & C & D); auto. simpl in A, B, C, D.
  assert (N : one_const nc0) by (unfold one_const; rewrite one_const_none; auto).
  destruct cs as [|t cs].
  - inv_ok. repeat split; auto. rewrite D; simpl; ring.
  - inv_ok. apply (acc_prod_sound rho) in H0 as (q & -> & Hq); auto.
    rewrite D, <- Hq.
    destruct (isq (ERat q) 0) eqn:E0; [|destruct (isq (ERat q) 1) eqn:E1]; inv_ok.
    + repeat split; auto.
      * constructor; simpl; auto.
      * unfold one_const; simpl; auto.
      * apply (isq_ev rho) in E0. simpl in *. rewrite E0, Q2R_0; ring.
    + repeat split; auto. apply (isq_ev rho) in E1. simpl in *. rewrite E1, Q2R_1; ring.
    + repeat split.
      * apply Forall_app; split; auto. constructor; simpl; auto.
      * unfold one_const. rewrite filter_app, one_const_none; auto.
      * rewrite map_app, Rprod_app. simpl. ring.
Qed.

Lemma prod_body_sound rho ts e : prod_body c k ts = Ok e -> Forall (wd rho) ts ->
  wd rho e /\ ev rho e = Rprod (map (ev rho) ts).
Proof.
  unfold prod_body. intros H Hw. inv_ok.
  destruct (flat_prod_sound rho ts Hw) as [F1 F2].
  apply (combine_prod_sound rho) in H0 as (A1 & A2 & A3); auto.
  rewrite <- F2, A3.
  destruct x as [|t [|u l]]; inv_ok.
  - split; simpl; auto. apply Q2R_1.
  - inversion A1; subst. split; auto. simpl; ring.
  - apply sort_perm in H0.
    assert (G : wd rho (EProd x) /\ ev rho (EProd x) = Rprod (map (ev rho) (t :: u :: l))).
    { split.
      - apply wd_prod. split; [eapply Forall_perm; eauto | eapply one_const_perm; eauto].
      - cbn [ev]. symmetry. apply Rprod_perm, Permutation_map, H0. }
    clear H0. destruct G as [G1 G2]. rewrite <- G2. clear G2 A1 A2 A3 F1 F2.
    destruct x as [|t0 [|t1 [|t2 l2]]]; inv_ok; auto.
    + destruct t1; inv_ok; auto.
      destruct (isq t0 (-1)) eqn:E; inv_ok; auto.
      apply wd_prod in G1 as [G1 _].
      inversion G1 as [|? ? G2 G3]; subst. inversion G3 as [|? ? G4 G5]; subst.
      apply (op_neg_sound rho) in H as [N1 N2]; auto. split; auto.
      rewrite N2. cbn [ev map Rprod fold_right]. rewrite (isq_ev rho _ _ E), Q2R_m1. ring.
    + destruct t1; inv_ok; auto.
Qed.
End Step.
