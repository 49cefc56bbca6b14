(** * Sort: the order of the operands does not matter to _sort_terms (C08). *)
From Verif Require Export Mono.
From Coq Require Import Sorting.Sorted Sorting.Permutation OrderedTypeEx.

(** ** String comparison is a total order *)
Lemma ascii_cmp_lt a b : Ascii.compare a b = Lt <-> (N_of_ascii a < N_of_ascii b)%N.
Proof. unfold Ascii.compare. apply N.compare_lt_iff. Qed.
Lemma scmp_trans a : forall b c o, String.compare a b = o -> String.compare b c = o -> String.compare a c = o.
Proof.
  induction a as [|x a IH]; intros [|y b] [|z c] o; simpl; try congruence.
  unfold Ascii.compare.
  destruct (N.compare_spec (N_of_ascii x) (N_of_ascii y)) as [E|E|E];
  destruct (N.compare_spec (N_of_ascii y) (N_of_ascii z)) as [E'|E'|E'];
  destruct (N.compare_spec (N_of_ascii x) (N_of_ascii z)) as [E''|E''|E''];
  try lia; try congruence; eauto.
Qed.
Definition sle (a b : string) : Prop := String.compare a b <> Gt.
Lemma sle_trans a b c : sle a b -> sle b c -> sle a c.
Proof.
  unfold sle. intros H1 H2 H3. destruct (String.compare a b) eqn:E1; try congruence.
  - apply String.compare_eq_iff in E1. subst. auto.
  - destruct (String.compare b c) eqn:E2; try congruence.
    + apply String.compare_eq_iff in E2. subst. congruence.
    + rewrite (scmp_trans _ _ _ _ E1 E2) in H3. discriminate.
Qed.
Lemma sle_antisym a b : sle a b -> sle b a -> a = b.
Proof.
  unfold sle. intros H1 H2. rewrite String.compare_antisym in H2.
  destruct (String.compare a b) eqn:E; simpl in *; try congruence. now apply String.compare_eq_iff in E.
Qed.

Section Sort.
Context (k : kern).

Definition before (a b : expr) : Prop := lt_terms k a b = Ok true.

Definition rle_repr (a b : expr) : Prop :=
  exists ra rb, k_repr k a = Ok ra /\ k_repr k b = Ok rb /\ sle ra rb.

(** The sort key, lexicographically: nesting, then symbol-free nesting or constant power, then
    the printed form. *)
Definition ltk (a b : expr) : Prop :=
  exists na nb, nwf a = Ok na /\ nwf b = Ok nb /\
  ((na < nb)%nat \/ na = nb /\
   (na = 0%nat /\ ((symboless_nest a < symboless_nest b)%nat \/ symboless_nest a = symboless_nest b /\ rle_repr a b)
    \/ na <> 0%nat /\ exists pa pb, const_power a = Ok pa /\ const_power b = Ok pb /\
         ((pa < pb)%Q \/ (pa == pb)%Q /\ rle_repr a b))).

Lemma repr_lt_spec a b t : repr_lt k a b = Ok t ->
  if t then rle_repr a b else rle_repr b a.
Proof.
  unfold repr_lt. intros H. apply bind_ok in H as (ra & Ha & H). apply bind_ok in H as (rb & Hb & H).
  destruct (String.compare ra rb) eqn:E; injection H as <-.
  - exists ra, rb. repeat split; auto. unfold sle. congruence.
  - exists ra, rb. repeat split; auto. unfold sle. congruence.
  - exists rb, ra. repeat split; auto. unfold sle. rewrite String.compare_antisym, E. discriminate.
Qed.
Lemma repr_lt_iff a b : repr_lt k a b = Ok true <-> rle_repr a b.
Proof.
  split; [apply repr_lt_spec|]. intros (ra & rb & Ha & Hb & H). unfold repr_lt. rewrite Ha, Hb. simpl.
  unfold sle in H. destruct (String.compare ra rb); congruence.
Qed.

Lemma lt_terms_spec a b t : lt_terms k a b = Ok t -> if t then ltk a b else ltk b a.
Proof.
  unfold lt_terms. intros H. apply bind_ok in H as (na & Ha & H). apply bind_ok in H as (nb & Hb & H).
  destruct (Nat.eqb na 0 && Nat.eqb nb 0) eqn:E0.
  - apply andb_prop in E0 as [E1 E2]. apply Nat.eqb_eq in E1, E2. subst.
    cbv zeta in H. destruct (Nat.eqb_spec (symboless_nest a) (symboless_nest b)) as [E|E].
    + apply repr_lt_spec in H. destruct t; exists 0%nat, 0%nat; repeat split; auto; right; split; auto; left; split; auto.
    + injection H as <-. destruct (Nat.ltb_spec (symboless_nest a) (symboless_nest b));
      exists 0%nat, 0%nat; repeat split; auto; right; split; auto; left; split; auto; left; lia.
  - destruct (Nat.eqb_spec na nb) as [E|E].
    + subst. assert (Hn : nb <> 0%nat) by (intros ->; discriminate).
      apply bind_ok in H as (pa & Hpa & H). apply bind_ok in H as (pb & Hpb & H).
      destruct (Qeq_bool pa pb) eqn:Eq.
      * apply Qeq_bool_iff in Eq. apply repr_lt_spec in H.
        destruct t; exists nb, nb; repeat split; auto; right; split; auto; right; split; auto.
        -- exists pa, pb. auto.
        -- exists pb, pa. split; auto. split; auto. right. split; auto. now symmetry.
      * injection H as <-. apply Qeq_bool_neq in Eq. destruct (Qle_bool pb pa) eqn:El; simpl;
        exists nb, nb; repeat split; auto; right; split; auto; right; split; auto.
        -- exists pb, pa. split; auto. split; auto. left. apply Qle_bool_iff in El.
           apply Qle_lteq in El as [El|El]; auto. destruct Eq. now symmetry.
        -- exists pa, pb. split; auto. split; auto. left. apply Qnot_le_lt. intros L.
           apply Qle_bool_iff in L. congruence.
    + injection H as <-. destruct (Nat.ltb_spec na nb); [exists na, nb|exists nb, na]; repeat split; auto; left; lia.
Qed.

Lemma ltk_before a b : ltk a b -> before a b.
Proof.
  intros (na & nb & Ha & Hb & H). unfold before, lt_terms. rewrite Ha, Hb. simpl.
  destruct H as [H|[<- [[-> H]|[Hn (pa & pb & Hpa & Hpb & H)]]]].
  - destruct (Nat.eqb_spec na 0), (Nat.eqb_spec nb 0); simpl; try lia;
    destruct (Nat.eqb_spec na nb); try lia; apply f_equal, Nat.ltb_lt; auto.
  - simpl. destruct H as [H|[E H]].
    + destruct (Nat.eqb_spec (symboless_nest a) (symboless_nest b)); [lia|]. now apply f_equal, Nat.ltb_lt.
    + rewrite E, Nat.eqb_refl. now apply repr_lt_iff.
  - destruct (Nat.eqb_spec na 0); [lia|]. simpl. rewrite Nat.eqb_refl, Hpa, Hpb. simpl.
    destruct H as [H|[E H]].
    + destruct (Qeq_bool pa pb) eqn:Eq; [apply Qeq_bool_iff in Eq; rewrite Eq in H; now apply Qlt_irrefl in H|].
      destruct (Qle_bool pb pa) eqn:El; auto. apply Qle_bool_iff in El. now apply Qle_not_lt in El.
    + apply Qeq_bool_iff in E. rewrite E. now apply repr_lt_iff.
Qed.
Lemma before_ltk a b : before a b <-> ltk a b.
Proof. split; [apply lt_terms_spec|apply ltk_before]. Qed.

Lemma rle_repr_trans a b c : rle_repr a b -> rle_repr b c -> rle_repr a c.
Proof.
  intros (ra & rb & Ha & Hb & H1) (rb' & rc & Hb' & Hc & H2). rewrite Hb in Hb'. injection Hb' as <-.
  exists ra, rc. repeat split; auto. eapply sle_trans; eauto.
Qed.

Lemma ltk_trans a b c : ltk a b -> ltk b c -> ltk a c.
Proof.
  intros (na & nb & Ha & Hb & H1) (nb' & nc & Hb' & Hc & H2). rewrite Hb in Hb'. injection Hb' as <-.
  exists na, nc. split; auto. split; auto.
  destruct H1 as [H1|[<- H1]]; destruct H2 as [H2|[<- H2]]; try (left; lia). right. split; auto.
  destruct H1 as [[E H1]|[Hn (pa & pb & Hpa & Hpb & H1)]]; destruct H2 as [[E2 H2]|[Hn2 (pb' & pc & Hpb' & Hpc & H2)]]; try lia.
  - left. split; auto. destruct H1 as [H1|[E1 H1]]; destruct H2 as [H2|[E3 H2]]; try (left; lia).
    right. split; [lia|]. eapply rle_repr_trans; eauto.
  - right. split; auto. rewrite Hpb in Hpb'. injection Hpb' as <-. exists pa, pc. split; auto. split; auto.
    destruct H1 as [H1|[E1 H1]]; destruct H2 as [H2|[E3 H2]].
    + left. eapply Qlt_trans; eauto.
    + left. now rewrite <- E3.
    + left. now rewrite E1.
    + right. split; [now rewrite E1|]. eapply rle_repr_trans; eauto.
Qed.

Lemma ltk_antisym a b : ltk a b -> ltk b a -> exists s, k_repr k a = Ok s /\ k_repr k b = Ok s.
Proof.
  intros (na & nb & Ha & Hb & H1) (nb' & na' & Hb' & Ha' & H2).
  rewrite Hb in Hb'. injection Hb' as <-. rewrite Ha in Ha'. injection Ha' as <-.
  assert (R : rle_repr a b -> rle_repr b a -> exists s, k_repr k a = Ok s /\ k_repr k b = Ok s).
  { intros (ra & rb & Ra & Rb & S1) (rb' & ra' & Rb' & Ra' & S2).
    rewrite Ra in Ra'. injection Ra' as <-. rewrite Rb in Rb'. injection Rb' as <-.
    exists ra. split; auto. now rewrite (sle_antisym _ _ S1 S2). }
  destruct H1 as [H1|[<- H1]]; destruct H2 as [H2|[E0 H2]]; try lia.
  destruct H1 as [[E H1]|[Hn (pa & pb & Hpa & Hpb & H1)]]; destruct H2 as [[E2 H2]|[Hn2 (pb' & pa' & Hpb' & Hpa' & H2)]]; try lia.
  - destruct H1 as [H1|[E1 H1]]; destruct H2 as [H2|[E3 H2]]; try lia. auto.
  - rewrite Hpb in Hpb'. injection Hpb' as <-. rewrite Hpa in Hpa'. injection Hpa' as <-.
    destruct H1 as [H1|[E1 H1]]; destruct H2 as [H2|[E3 H2]]; auto; exfalso.
    + apply (Qlt_irrefl pa). eapply Qlt_trans; eauto.
    + rewrite E3 in H1. now apply Qlt_irrefl in H1.
    + rewrite E1 in H2. now apply Qlt_irrefl in H2.
Qed.

Lemma insert_perm x l : forall s, insert_term k x l = Ok s -> Permutation (x :: l) s.
Proof.
  induction l as [|y l IH]; cbn [insert_term]; intros s H; [injection H as <-; auto|].
  apply bind_ok in H as (t & _ & H). destruct t.
  - injection H as <-. auto.
  - apply bind_ok in H as (r & Hr & H). injection H as <-. rewrite perm_swap. constructor. auto.
Qed.
Lemma insert_sorted x l : forall s, insert_term k x l = Ok s -> StronglySorted ltk l -> StronglySorted ltk s.
Proof.
  induction l as [|y l IH]; cbn [insert_term]; intros s H HS; [injection H as <-; repeat constructor|].
  apply bind_ok in H as (t & Ht & H). apply lt_terms_spec in Ht. inversion HS as [|? ? HS' HF]; subst. destruct t.
  - injection H as <-. constructor; auto. constructor; auto.
    eapply Forall_impl; [|exact HF]. intros z Hz. eapply ltk_trans; eauto.
  - apply bind_ok in H as (r & Hr & H). injection H as <-. constructor; [eapply IH; eauto|].
    apply insert_perm in Hr. rewrite <- Hr. constructor; auto.
Qed.

Lemma foldM_sort l : forall acc s, foldM (fun acc x => insert_term k x acc) l acc = Ok s ->
  StronglySorted ltk acc -> StronglySorted ltk s /\ Permutation (acc ++ l) s.
Proof.
  induction l as [|x l IH]; cbn [foldM]; intros acc s H HS.
  - injection H as <-. rewrite app_nil_r. auto.
  - apply bind_ok in H as (a & Ha & H). apply IH in H as [H1 H2]; [|eapply insert_sorted; eauto].
    split; auto. rewrite <- H2, <- Permutation_middle. apply insert_perm in Ha. rewrite <- Ha. auto.
Qed.
Lemma sort_terms_spec l s : sort_terms k l = Ok s -> StronglySorted ltk s /\ Permutation l s.
Proof. intros H. apply (foldM_sort l [] s H). constructor. Qed.

(** Printed forms of different terms are different. *)
Definition distinct_repr (l : list expr) : Prop :=
  forall a b s, In a l -> In b l -> k_repr k a = Ok s -> k_repr k b = Ok s -> a = b.

Lemma sorted_unique s1 : forall s2, StronglySorted ltk s1 -> StronglySorted ltk s2 -> Permutation s1 s2 ->
  distinct_repr s1 -> s1 = s2.
Proof.
  induction s1 as [|x s1 IH]; intros s2 H1 H2 P D.
  - now apply Permutation_nil in P.
  - destruct s2 as [|y s2]; [symmetry in P; now apply Permutation_nil in P|].
    inversion H1 as [|? ? S1 F1]; inversion H2 as [|? ? S2 F2]; subst.
    assert (E : x = y).
    { assert (Iy : In y (x :: s1)) by (rewrite P; left; auto).
      assert (Ix : In x (y :: s2)) by (rewrite <- P; left; auto).
      destruct Iy as [|Iy]; auto. destruct Ix as [|Ix]; auto.
      rewrite Forall_forall in F1, F2. destruct (ltk_antisym x y (F1 _ Iy) (F2 _ Ix)) as (s & Hx & Hy).
      apply (D x y s); auto; [left|right]; auto. }
    subst y. f_equal. apply IH; auto.
    + now apply Permutation_cons_inv in P.
    + intros a b s Ha Hb. apply D; right; auto.
Qed.

(** Two orders of the same terms sort to the same list. *)
Theorem sort_terms_perm l1 l2 s1 s2 : Permutation l1 l2 -> distinct_repr l1 ->
  sort_terms k l1 = Ok s1 -> sort_terms k l2 = Ok s2 -> s1 = s2.
Proof.
  intros P D H1 H2. apply sort_terms_spec in H1 as [S1 P1], H2 as [S2 P2].
  apply sorted_unique; auto.
  - now rewrite <- P1, P, P2.
  - intros a b s Ha Hb. apply D; rewrite P1; auto.
Qed.
End Sort.

(** ** Sums and products of terms that do not merge *)
Section Order.
Context (c : cfg) (k : kern).

(** Neither term is a numeric multiple of the other, as the code tests it. *)
Definition unlike2 (a b : expr) : Prop :=
  py_eql c (snd (decon_prod a)) (snd (decon_prod b)) = Ok false /\
  py_eql c (snd (decon_prod b)) (snd (decon_prod a)) = Ok false.
(** The two factors are not powers of the same base, as the code tests it. *)
Definition unbase2 (a b : expr) : Prop :=
  py_eq c (fst (decon_pow a)) (fst (decon_pow b)) = Ok false /\
  py_eq c (fst (decon_pow b)) (fst (decon_pow a)) = Ok false.

Lemma ForallOrdPairs_perm {A} (R : A -> A -> Prop) (HR : forall a b, R a b -> R b a) l1 l2 :
  Permutation l1 l2 -> ForallOrdPairs R l1 -> ForallOrdPairs R l2.
Proof.
  induction 1 as [|x l l' P IH|x y l|l l' l'' P1 IH1 P2 IH2]; intros H; auto.
  - inversion H; subst. constructor; auto. now rewrite <- P.
  - inversion H as [|? ? Hx Hl]; subst. inversion Hl as [|? ? Hy Hl']; subst.
    inversion Hx; subst. repeat constructor; auto.
Qed.

Lemma split_like_unlike t l : Forall (unlike2 t) l -> split_like c (snd (decon_prod t)) l = Ok ([], l).
Proof.
  induction 1 as [|x l [Hx _] _ IH]; cbn [split_like]; auto.
  destruct (decon_prod x) as [cs n2] eqn:E. simpl in Hx. rewrite Hx. simpl. now rewrite IH.
Qed.
Lemma split_base_unlike t : forall l x, Forall (unbase2 t) l ->
  split_base c k (fst (decon_pow t)) x l = Ok (false, x, l).
Proof.
  intros l x H. revert x. induction H as [|u l [_ Hu] _ IH]; intros x; cbn [split_base]; auto.
  destruct (decon_pow u) as [ob oe] eqn:E. simpl in Hu. rewrite Hu. simpl. now rewrite IH.
Qed.

Definition nonacc (l : list expr) := filter (fun t => negb (is_acc t)) l.
Lemma combine_sum_unlike l : ForallOrdPairs unlike2 l ->
  combine_sum_go c (List.length l) l = Ok (nonacc l, filter is_acc l).
Proof.
  induction 1 as [|t l Ht _ IH]; auto. cbn [List.length combine_sum_go nonacc filter].
  destruct (is_acc t) eqn:E; simpl.
  - now rewrite IH.
  - pose proof (split_like_unlike t l Ht) as S. destruct (decon_prod t) as [co ncf]. simpl in S. rewrite S. simpl. now rewrite IH.
Qed.
Lemma combine_prod_unlike l : ForallOrdPairs unbase2 l ->
  combine_prod_go c k (List.length l) l = Ok (nonacc l, filter is_acc l).
Proof.
  induction 1 as [|t l Ht _ IH]; auto. cbn [List.length combine_prod_go nonacc filter].
  pose proof (split_base_unlike t l (snd (decon_pow t)) Ht) as S. destruct (decon_pow t) as [b x].
  simpl in S. rewrite S. simpl. rewrite IH. simpl. unfold add_term. now destruct (is_acc t).
Qed.

Lemma filter_perm {A} (f : A -> bool) l1 l2 : Permutation l1 l2 -> Permutation (filter f l1) (filter f l2).
Proof.
  induction 1; simpl; auto; [destruct (f x); auto|destruct (f x), (f y); auto; constructor|etransitivity; eauto].
Qed.
Lemma perm_short {A} (l1 l2 : list A) : Permutation l1 l2 -> (List.length l1 <= 1)%nat -> l1 = l2.
Proof.
  intros P H. destruct l1 as [|x [|y l1]]; simpl in H; try lia.
  - now apply Permutation_nil in P.
  - now apply Permutation_length_1_inv in P.
Qed.

Lemma flat_sum_id ts : forallb (fun t => negb (is_sum t)) ts = true -> flat_sum ts = ts.
Proof.
  induction ts as [|t ts IH]; simpl; intros H; auto. apply andb_prop in H as [H1 H2].
  unfold flat_sum in *. simpl. rewrite IH; auto. destruct t; auto; discriminate.
Qed.
Lemma flat_prod_id ts : forallb (fun t => negb (is_prod t)) ts = true -> flat_prod ts = ts.
Proof.
  induction ts as [|t ts IH]; simpl; intros H; auto. apply andb_prop in H as [H1 H2].
  unfold flat_prod in *. simpl. rewrite IH; auto. destruct t; auto; discriminate.
Qed.
Lemma forallb_perm {A} (f : A -> bool) l1 l2 : Permutation l1 l2 -> forallb f l1 = forallb f l2.
Proof. induction 1; simpl; try congruence. destruct (f x), (f y); auto. Qed.

Lemma distinct_incl l1 l2 : incl l2 l1 -> distinct_repr k l1 -> distinct_repr k l2.
Proof. intros H D a b s Ha Hb. apply D; auto. Qed.

(** The list that gets sorted, for the two orders. *)
Lemma sum_nc_perm ts1 ts2 l1 : Permutation ts1 ts2 -> ForallOrdPairs unlike2 ts1 ->
  (List.length (filter is_acc ts1) <= 1)%nat -> combine_sum c ts1 = Ok l1 ->
  exists l2, combine_sum c ts2 = Ok l2 /\ Permutation l1 l2 /\ incl l1 ts1.
Proof.
  intros P U O H. unfold combine_sum in *. rewrite combine_sum_unlike in H by auto.
  rewrite combine_sum_unlike by (eapply ForallOrdPairs_perm; eauto; unfold unlike2; tauto).
  simpl in *. rewrite <- (perm_short _ _ (filter_perm is_acc _ _ P) O).
  assert (I : incl (nonacc ts1) ts1) by (intros x Hx; now apply filter_In in Hx).
  pose proof (filter_perm (fun t => negb (is_acc t)) _ _ P) as PN. fold (nonacc ts1) (nonacc ts2) in PN.
  destruct (filter is_acc ts1) as [|t [|u r]] eqn:E; simpl in O; try lia.
  - injection H as <-. exists (nonacc ts2). auto.
  - simpl in *. assert (In t ts1) by (apply (filter_In is_acc t ts1); rewrite E; left; auto).
    destruct (isq t 0); injection H as <-; eexists; split; eauto.
    split; [now rewrite PN|]. intros x Hx. apply in_app_or in Hx as [Hx|[<-|[]]]; auto.
Qed.
Lemma prod_nc_perm ts1 ts2 l1 : Permutation ts1 ts2 -> ForallOrdPairs unbase2 ts1 ->
  (List.length (filter is_acc ts1) <= 1)%nat -> combine_prod c k ts1 = Ok l1 ->
  exists l2, combine_prod c k ts2 = Ok l2 /\ Permutation l1 l2 /\ incl l1 ts1.
Proof.
  intros P U O H. unfold combine_prod in *. rewrite combine_prod_unlike in H by auto.
  rewrite combine_prod_unlike by (eapply ForallOrdPairs_perm; eauto; unfold unbase2; tauto).
  simpl in *. rewrite <- (perm_short _ _ (filter_perm is_acc _ _ P) O).
  assert (I : incl (nonacc ts1) ts1) by (intros x Hx; now apply filter_In in Hx).
  pose proof (filter_perm (fun t => negb (is_acc t)) _ _ P) as PN. fold (nonacc ts1) (nonacc ts2) in PN.
  destruct (filter is_acc ts1) as [|t [|u r]] eqn:E; simpl in O; try lia.
  - injection H as <-. exists (nonacc ts2). auto.
  - simpl in *. assert (In t ts1) by (apply (filter_In is_acc t ts1); rewrite E; left; auto).
    destruct (isq t 0); [|destruct (isq t 1)]; injection H as <-; eexists; split; eauto.
    + split; auto. intros x [<-|[]]; auto.
    + split; [now rewrite PN|]. intros x Hx. apply in_app_or in Hx as [Hx|[<-|[]]]; auto.
Qed.

Theorem sum_body_perm ts1 ts2 e1 e2 : Permutation ts1 ts2 ->
  forallb (fun t => negb (is_sum t)) ts1 = true -> ForallOrdPairs unlike2 ts1 ->
  (List.length (filter is_acc ts1) <= 1)%nat -> distinct_repr k ts1 ->
  sum_body c k ts1 = Ok e1 -> sum_body c k ts2 = Ok e2 -> e1 = e2.
Proof.
  intros P NS U O D H1 H2. unfold sum_body in *.
  rewrite flat_sum_id in H1 by auto. rewrite flat_sum_id in H2 by now rewrite <- (forallb_perm _ _ _ P).
  apply bind_ok in H1 as (l1 & L1 & H1). apply bind_ok in H2 as (l2 & L2 & H2).
  destruct (sum_nc_perm _ _ _ P U O L1) as (l2' & L2' & PP & I). rewrite L2 in L2'. injection L2' as <-.
  destruct l1 as [|x [|y l1]].
  - apply Permutation_nil in PP. subst. congruence.
  - apply Permutation_length_1_inv in PP. subst. congruence.
  - destruct l2 as [|x' [|y' l2]]; try (apply Permutation_length in PP; discriminate).
    apply bind_ok in H1 as (s1 & S1 & H1). apply bind_ok in H2 as (s2 & S2 & H2).
    rewrite (sort_terms_perm k _ _ _ _ PP (distinct_incl _ _ I D) S1 S2) in H1. congruence.
Qed.
Theorem prod_body_perm ts1 ts2 e1 e2 : Permutation ts1 ts2 ->
  forallb (fun t => negb (is_prod t)) ts1 = true -> ForallOrdPairs unbase2 ts1 ->
  (List.length (filter is_acc ts1) <= 1)%nat -> distinct_repr k ts1 ->
  prod_body c k ts1 = Ok e1 -> prod_body c k ts2 = Ok e2 -> e1 = e2.
Proof.
  intros P NS U O D H1 H2. unfold prod_body in *.
  rewrite flat_prod_id in H1 by auto. rewrite flat_prod_id in H2 by now rewrite <- (forallb_perm _ _ _ P).
  apply bind_ok in H1 as (l1 & L1 & H1). apply bind_ok in H2 as (l2 & L2 & H2).
  destruct (prod_nc_perm _ _ _ P U O L1) as (l2' & L2' & PP & I). rewrite L2 in L2'. injection L2' as <-.
  destruct l1 as [|x [|y l1]].
  - apply Permutation_nil in PP. subst. congruence.
  - apply Permutation_length_1_inv in PP. subst. congruence.
  - destruct l2 as [|x' [|y' l2]]; try (apply Permutation_length in PP; discriminate).
    apply bind_ok in H1 as (s1 & S1 & H1). apply bind_ok in H2 as (s2 & S2 & H2).
    rewrite (sort_terms_perm k _ _ _ _ PP (distinct_incl _ _ I D) S1 S2) in H1. congruence.
Qed.
End Order.
