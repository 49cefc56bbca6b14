(** * FragNum: numbers substituted into an expression are computed exactly.

    [qeval m e] is ordinary arithmetic over Q: it gives the value of an expression made of rational
    numbers, symbols with a value in [m], sums, products, absolute values and powers with an integer
    exponent, and nothing when a symbol has no value, an exponent is not an integer or zero is
    raised to a negative power. *)
From Verif Require Import Atoms Calc Frag.
From Coq Require Import Lqa Qpower.
Open Scope Z_scope.

Fixpoint qeval (m : list (string * Q)) (e : expr) : option Q :=
  match e with
  | ERat q => Some q
  | ESym s => assoc s m
  | ESum ts => fold_right (fun t r => match qeval m t, r with Some a, Some b => Some (a + b)%Q | _, _ => None end) (Some 0%Q) ts
  | EProd ts => fold_right (fun t r => match qeval m t, r with Some a, Some b => Some (a * b)%Q | _, _ => None end) (Some 1%Q) ts
  | EPow b x =>
      match qeval m b, qeval m x with
      | Some p, Some z => if qisint z && (negb (qis0 p) || negb (qlt0 z)) then Some (p ^ numer z)%Q else None
      | _, _ => None
      end
  | EAbs i => match qeval m i with Some a => Some (Qabs a) | None => None end
  | _ => None
  end.
Definition numbers (m : list (string * Q)) : list (string * expr) := map (fun p => (fst p, ERat (snd p))) m.

Lemma assoc_numbers s m : assoc s (numbers m) = match assoc s m with Some q => Some (ERat q) | None => None end.
Proof. induction m as [|[t q] m IH]; simpl; auto. destruct (String.eqb t s); auto. Qed.

Lemma flat_sum_rats l : Forall (fun t => is_rat t = true) l -> flat_sum l = l.
Proof. induction 1 as [|t l T H IH]; auto. unfold flat_sum in *. simpl. rewrite IH. now destruct t. Qed.
Lemma combine_sum_rats c : forall f l, Forall (fun t => is_rat t = true) l -> (List.length l <= f)%nat ->
  combine_sum_go c f l = Ok ([], l).
Proof.
  induction f as [|f IH]; intros l Hl Hf; (destruct l as [|t l]; [auto|]); [simpl in Hf; lia|].
  inversion Hl; subst. simpl in Hf. cbn [combine_sum_go]. rewrite IH by (auto; lia). destruct t; try discriminate. reflexivity.
Qed.
Lemma k_sum_rats c n l : Forall (fun t => is_rat t = true) l ->
  exists q, k_sum (K c (S n)) l = Ok (ERat q) /\ (q == ratsum l)%Q.
Proof.
  intros H. cbn [K build k_sum]. unfold sum_body, combine_sum. rewrite flat_sum_rats, combine_sum_rats by auto. cbn [bind].
  destruct l as [|t l]; [exists 0%Q; simpl; split; auto; reflexivity|].
  destruct (acc_sum_rats (t :: l) H) as (q & -> & Hq). cbn [bind]. destruct (isq (ERat q) 0) eqn:E.
  - cbn [bind]. exists 0%Q. split; auto. apply isq_rat in E. now rewrite <- Hq, E.
  - cbn [bind app]. exists q. auto.
Qed.
Lemma k_prod_rats c n l : Forall (fun t => is_rat t = true) l ->
  exists q, k_prod (K c (2 + n)) l = Ok (ERat q) /\ (q == ratprod l)%Q.
Proof.
  intros H. assert (Hf : Forall (fac (fun _ => True)) l).
  { eapply Forall_impl; [|exact H]. intros t T. destruct (rat_is t T) as (q & ->). apply fac_rat. }
  change (K c (2 + n)) with (build c (K c (S n))). cbn [build k_prod]. unfold prod_body, combine_prod.
  rewrite (flat_prod_fac _ l Hf).
  destruct (combine_prod_go_fac (fun _ => True) ltac:(auto) ltac:(auto) I c n (List.length l) l Hf (Nat.le_refl _))
    as (nc & cs & -> & A & B & C & D & E). cbn [bind].
  assert (Nn : flat_map names l = []).
  { clear -H. induction H as [|t l T H IH]; auto. destruct t; try discriminate. exact IH. }
  assert (nc = []) as ->.
  { destruct nc as [|a nc]; auto. exfalso. inversion A as [|? ? A1 _]; subst. rewrite Nn in E.
    destruct A1; apply (E s); simpl; auto. }
  destruct cs as [|t cs]; [exists 1%Q; split; auto|].
  destruct (acc_prod_rats (t :: cs) B) as (q & -> & Hq). cbn [bind]. destruct (isq (ERat q) 0) eqn:E0.
  - cbn [bind]. exists q. split; auto. now rewrite Hq, C.
  - destruct (isq (ERat q) 1) eqn:E1; cbn [bind app].
    + exists 1%Q. split; auto. apply isq_rat in E1. now rewrite <- C, <- Hq.
    + exists q. split; auto. now rewrite Hq, C.
Qed.

Lemma F_pow c n b x : k_pow (F nodom c n) b x = k_pow (K c n) b x.
Proof. cbn [F kk gk k_pow]. unfold nodom. now rewrite orb_true_r. Qed.

Section Eval.
Context (c : cfg) (n : nat) (m : list (string * Q)).

Theorem subs_numbers e q : qeval m e = Some q ->
  exists q', subs (F nodom c (2 + n)) (numbers m) e = Ok (ERat q') /\ (q' == q)%Q.
Proof.
  revert q. induction e as [q0| | | | |s| |ts IH|ts IH|b x IHb IHx|i b IHi IHb|f i IHi|i IHi] using expr_ind'; intros q H; try discriminate.
  - injection H as <-. exists q0. split; auto. reflexivity.
  - simpl in H. cbn [subs]. rewrite assoc_numbers, H. exists q. split; auto. reflexivity.
  - cbn [subs].
    match goal with |- exists q', (ts' <- ?g ts;; _) = Ok _ /\ _ =>
      assert (G : exists ts', g ts = Ok ts' /\ Forall (fun t => is_rat t = true) ts' /\ (ratsum ts' == q)%Q) end.
    { simpl in H. revert q H. induction IH as [|t l Ht Hl IHl]; intros q H.
      - injection H as <-. exists []. repeat split; auto; reflexivity.
      - simpl in H. destruct (qeval m t) as [a|]; [|discriminate].
        match type of H with match ?r with _ => _ end = _ => destruct r as [b|]; [|discriminate] end.
        injection H as <-. destruct (Ht a eq_refl) as (a' & -> & Ea). destruct (IHl b eq_refl) as (ts' & -> & F & Eb).
        cbn [bind]. exists (ERat a' :: ts'). repeat split; auto. simpl. now rewrite Ea, Eb. }
    destruct G as (ts' & -> & Fr & Es). cbn [bind].
    destruct (k_sum_rats c (S n) ts' Fr) as (q' & E & Eq). exists q'. split; [exact E|]. now rewrite Eq.
  - cbn [subs].
    match goal with |- exists q', (ts' <- ?g ts;; _) = Ok _ /\ _ =>
      assert (G : exists ts', g ts = Ok ts' /\ Forall (fun t => is_rat t = true) ts' /\ (ratprod ts' == q)%Q) end.
    { simpl in H. revert q H. induction IH as [|t l Ht Hl IHl]; intros q H.
      - injection H as <-. exists []. repeat split; auto; reflexivity.
      - simpl in H. destruct (qeval m t) as [a|]; [|discriminate].
        match type of H with match ?r with _ => _ end = _ => destruct r as [b|]; [|discriminate] end.
        injection H as <-. destruct (Ht a eq_refl) as (a' & -> & Ea). destruct (IHl b eq_refl) as (ts' & -> & F & Eb).
        cbn [bind]. exists (ERat a' :: ts'). repeat split; auto. simpl. now rewrite Ea, Eb. }
    destruct G as (ts' & -> & Fr & Es). cbn [bind].
    destruct (k_prod_rats c n ts' Fr) as (q' & E & Eq). exists q'. split; [exact E|]. now rewrite Eq.
  - simpl in H. destruct (qeval m b) as [p|] eqn:Eb; [|discriminate]. destruct (qeval m x) as [z|] eqn:Ez; [|discriminate].
    destruct (qisint z) eqn:Iz; [|discriminate]. cbn [andb] in H. destruct (negb (qis0 p) || negb (qlt0 z)) eqn:G; [|discriminate].
    injection H as <-. destruct (IHb p eq_refl) as (p' & Ep & Hp). destruct (IHx z eq_refl) as (z' & Ez' & Hz).
    cbn [subs]. rewrite Ep, Ez'. cbn [bind].
    destruct (k_pow_int c (S n) p' z') as (r & Er & Hr).
    { rewrite (qisint_qeq _ _ Hz). auto. }
    { intros E. rewrite Hp in E. apply qis0_iff in E. rewrite E in G. simpl in G. rewrite Hz. apply qlt0_f. now destruct (qlt0 z). }
    exists r. split; [|now rewrite Hr, Hp, (numer_qeq _ _ Hz)].
    rewrite F_pow. exact Er.
  - simpl in H. destruct (qeval m i) as [a|]; [|discriminate]. injection H as <-. destruct (IHi a eq_refl) as (a' & Ea & Ha).
    cbn [subs]. rewrite Ea. cbn [bind]. exists (Qred (Qabs a')). split; [reflexivity|]. now rewrite Qred_correct, Ha.
Qed.
End Eval.
