(** In a monitored run no node has both parts of a sum and other children: the guards of the monitor
    (Search.v) refuse to mix them. *)
From Coquelicot Require Import Coquelicot.
From Verif Require Export HerSearch.
Close Scope R_scope.
Open Scope nat_scope.

Definition pure (h : heap) : Prop := forall p m, nth_error h p = Some m ->
  forall k1 k2 c1 c2, In k1 (nd_kids m) -> In k2 (nd_kids m) -> nth_error h k1 = Some c1 -> nth_error h k2 = Some c2 ->
  is_add c1 = is_add c2.
Lemma pure_unmixed h : pure h -> unmixed h.
Proof.
  intros U p m Hm k1 k2 c1 c2 I1 I2 H1 H2 A. rewrite (U p m Hm k1 k2 c1 c2 I1 I2 H1 H2) in A. unfold is_add in A.
  destruct (nd_t c2) as [[| | |]|]; try discriminate; reflexivity.
Qed.
Lemma pure_set h i f : (forall q, core (f q) = core q /\ nd_kids (f q) = nd_kids q) -> pure h -> pure (setn h i f).
Proof.
  intros Hf. assert (Dn : forall j q, nth_error (setn h i f) j = Some q -> exists q0, nth_error h j = Some q0 /\ nd_t q0 = nd_t q /\ nd_kids q0 = nd_kids q).
  { intros j q H. rewrite nth_setn in H. destruct (Nat.eqb i j); [|eauto]. destruct (nth_error h j) as [q0|]; [|discriminate].
    injection H as <-. exists q0. destruct (Hf q0) as [C K]. apply core_inv in C as (_ & _ & C & _). auto. }
  intros U p m Hm k1 k2 c1 c2 I1 I2 H1 H2. apply Dn in Hm as (m0 & Hm & _ & Km). apply Dn in H1 as (c1' & H1 & T1 & _).
  apply Dn in H2 as (c2' & H2 & T2 & _). rewrite <- Km in *. unfold is_add. rewrite <- T2, <- T1. exact (U p m0 Hm k1 k2 c1' c2' I1 I2 H1 H2).
Qed.
Lemma pure_app h p m cs b : Tree h -> nth_error h p = Some m -> pure h ->
  (forall k c, In k (nd_kids m) -> nth_error h k = Some c -> is_add c = b) ->
  Forall (fun c => is_add c = b /\ nd_kids c = []) cs -> pure (append h p cs).
Proof.
  intros HT Hm U Hk HC p' m' Hm' k1 k2 c1 c2 I1 I2 H1 H2. pose proof (nth_lt _ _ _ Hm) as Lp. rewrite Forall_forall in HC.
  apply append_cases in Hm' as [(m0 & M0 & _ & _ & _ & _ & Km)|(_ & Hi)]; auto; [|apply HC in Hi as (_ & K); rewrite K in I1; destruct I1].
  rewrite Km in I1, I2. destruct (HT _ _ M0) as (K & _).
  assert (Old : forall k c, In k (nd_kids m0) -> nth_error (append h p cs) k = Some c -> exists c0, nth_error h k = Some c0 /\ is_add c = is_add c0).
  { intros k c Ik Hc. destruct (K _ Ik) as (_ & c0 & H0 & _). exists c0. split; auto.
    destruct (append_old h p cs _ _ H0) as (c' & H' & C & _). replace c' with c in * by congruence. apply core_inv in C as (_ & _ & C & _). unfold is_add. now rewrite C. }
  destruct (Nat.eqb_spec p p') as [<-|_].
  - assert (m0 = m) by congruence. subst m0.
    assert (A : forall k c, In k (nd_kids m ++ seq (List.length h) (List.length cs)) -> nth_error (append h p cs) k = Some c -> is_add c = b).
    { intros k c Ik Hc. apply in_app_or in Ik as [Ik|Ik].
      - destruct (Old _ _ Ik Hc) as (c0 & H0 & ->). eauto.
      - apply in_seq in Ik. apply append_cases in Hc as [(c0 & H0 & _)|(_ & Hi)]; auto; [apply nth_lt in H0; lia|]. now apply HC in Hi. }
    rewrite (A _ _ I1 H1), (A _ _ I2 H2). reflexivity.
  - rewrite app_nil_r in I1, I2. destruct (Old _ _ I1 H1) as (c1' & H1' & ->). destruct (Old _ _ I2 H2) as (c2' & H2' & ->).
    exact (U p' m0 M0 k1 k2 c1' c2' I1 I2 H1' H2').
Qed.
Lemma no_add_kids h q k c : no_add h q = true -> In k (nd_kids q) -> nth_error h k = Some c -> is_add c = false.
Proof.
  unfold no_add. intros H Hi Hc. rewrite forallb_forall in H. specialize (H _ Hi). rewrite Hc in H. now apply negb_true_iff.
Qed.

Section Pure.
Context (fk : fkern) (HS : k_strict fk = true) (rng : string -> expr -> bool) (nm : nat -> string) (n : nat).
Lemma sgt {A} b (r : res A) a : guard (negb (k_strict fk) || b) r = Ok a -> b = true /\ r = Ok a.
Proof. rewrite HS. cbn. destruct b; cbn; [auto|discriminate]. Qed.
Definition TP (h : heap) : Prop := Tree h /\ pure h.
Lemma TP_grow h h' : TP h -> grow h h' -> (TP h -> pure h') -> TP h'.
Proof. intros H G HI. split; auto. destruct H. eapply Tree_grow; eauto. Qed.
Lemma TP_ty h i t : TP h -> t <> SOLUTION -> TP (setn h i (set_ty t)).
Proof. intros H Ht. apply (TP_grow _ _ H); [now apply g_one, p_ty|]. intros [_ U]. apply pure_set; auto. Qed.

Lemma add1_pure h p e v t h' : add1 fk h p (mkn e v t p) = Ok h' -> t <> TAdd -> TP h -> TP h'.
Proof.
  intros H Ht HP. assert (G := H). apply add1_grow in G. apply (TP_grow _ _ HP G). intros [HT U].
  unfold add1 in H. apply bind_ok in H as (q & Hq & H). apply sgt in H as [B H]. injection H as <-. apply get_ok in Hq.
  destruct (dropped _ _ _); auto. apply andb_true_iff in B as [_ B].
  eapply (pure_app _ _ _ _ false); eauto; [intros k c; now apply no_add_kids|]. constructor; [|constructor].
  split; auto. unfold is_add. cbn. destruct t; congruence.
Qed.
Lemma add_id_pure k h i v o h' : add_id fk k h i v o = Ok h' -> TP h -> TP h'.
Proof. destruct o; [|intros H; injection H as <-; auto]. intros H. eapply add1_pure; eauto. discriminate. Qed.
Lemma additivity_pure h p v ts h' : additivity fk h p v ts = Ok h' -> TP h -> TP h'.
Proof.
  intros H HP. assert (G := H). apply additivity_grow in G. apply (TP_grow _ _ HP G). intros _.
  unfold additivity in H. apply bind_ok in H as (q & Hq & H). apply sgt in H as [B H]. injection H as <-. apply get_ok in Hq.
  apply andb_true_iff in B as [B _]. apply andb_true_iff in B as [_ B].
  destruct (TP_ty _ p AND HP) as [HT U]; [discriminate|].
  eapply (pure_app _ _ (set_ty AND q) _ true); eauto.
  - rewrite nth_setn, Nat.eqb_refl, Hq. reflexivity.
  - cbn. destruct (nd_kids q); [intros k c []|discriminate].
  - apply Forall_forall. intros c Hc. apply filter_In in Hc as [Hc _]. apply in_map_iff in Hc as (t & <- & _). auto.
Qed.
Lemma safe_step_pure s i s' : safe_step fk rng nm n s i = Ok s' -> TP (fst s) -> TP (fst s').
Proof.
  destruct s as [h x]. intros H HP. unfold safe_step in H. apply bind_ok in H as (q & Hq & H). cbn [fst] in *.
  assert (R : match nd_e q with ESum ts => h' <- additivity fk h i (nd_v q) ts;; Ok (h', x) | _ => Ok s' end = Ok s' -> TP (fst s')).
  { destruct (nd_e q); intros E; try (clear E). all: try (repeat match type of H with
      | bind _ _ = Ok _ => let z := fresh "z" in let Hz := fresh "Hz" in apply bind_ok in H as (z & Hz & H)
      | (match ?o with Some _ => _ | None => _ end) = Ok _ => destruct o as [?|]
      | (let '(_, _) := ?o in _) = Ok _ => destruct o as [? ?]
      | Ok _ = Ok _ => injection H as <-; cbn [fst]
      end; solve [exact HP | eapply add1_pure; [eassumption|discriminate|exact HP] | eapply add_id_pure; eassumption
                 | eapply additivity_pure; eassumption]). }
  apply R. destruct (nd_e q); auto.
Qed.
Lemma safely_pure k : forall s i s', safely fk rng nm n k s i = Ok s' -> TP (fst s) -> TP (fst s').
Proof.
  induction k as [|k IH]; intros s i s' H HP; cbn [safely] in H; [discriminate|].
  apply bind_ok in H as (s1 & H1 & H). apply bind_ok in H as (q & Hq & H). apply safe_step_pure in H1; auto.
  exact (foldM_inv _ (fun s => TP (fst s)) _ (fun b a b' => IH b a b') _ _ H H1).
Qed.
Lemma check_pure h i h' : check_solvable fk h i = Ok h' -> TP h -> TP h'.
Proof.
  intros H HP. assert (G := H). apply check_grow in G. apply (TP_grow _ _ HP G). intros [HT U].
  unfold check_solvable in H. apply bind_ok in H as (q & Hq & H). apply bind_ok in H as (o & Ho & H).
  destruct o as [a|]; [apply guard_inv in H|]; injection H as <-; auto. apply pure_set; auto. apply pure_set; auto.
Qed.
Lemma bp_funky_pure h i v e c1 i2 h' : bp_funky fk h i v e c1 i2 = Ok h' -> TP h -> TP h'.
Proof.
  intros H HP. assert (G := H). apply bp_funky_grow in G. apply (TP_grow _ _ HP G). intros [HT U]. clear G.
  unfold bp_funky in H. apply bind_ok in H as (q & Hq & H). apply get_ok in Hq. apply sgt in H as [B H]. cbv zeta in H.
  apply sgt in H as [D H]. injection H as <-. apply andb_true_iff in B as [_ B].
  set (fn := {| nd_e := e |}) in *.
  assert (T1 : Tree (append h i [fn])).
  { eapply Tree_grow; [|exact HT]. apply g_one. eapply p_app; eauto. constructor; auto. unfold fresh, fn. splits; cbn; auto; discriminate. }
  assert (N : nth_error (append h i [fn]) (List.length h) = Some fn).
  { unfold append. rewrite nth_setn. assert (N : Nat.eqb i (List.length h) = false) by (apply Nat.eqb_neq; apply nth_lt in Hq; lia).
    rewrite N. rewrite nth_error_app2, Nat.sub_diag by lia. reflexivity. }
  assert (U1 : pure (append h i [fn])).
  { eapply (pure_app _ _ _ _ false); eauto. intros k c. now apply no_add_kids. }
  apply (pure_app _ _ fn _ true); auto.
  constructor; [now split|]. destruct (dropped _ _ _); repeat constructor.
Qed.
Lemma bp_cyclic2_pure h i mi v e c1 i2 h' : bp_cyclic2 fk h i mi v e c1 i2 = Ok h' -> TP h -> TP h'.
Proof.
  intros H HP. assert (G := H). apply bp_cyclic2_grow in G. apply (TP_grow _ _ HP G). intros [HT U]. clear G.
  unfold bp_cyclic2 in H. apply bind_ok in H as (m & Hm & H). apply bind_ok in H as ([ff k1] & Hf & H).
  apply bind_ok in H as (sf & Hsf & H). apply bind_ok in H as (f & Hff & H). destruct (nd_kids m) as [|k0 ks]; [discriminate|].
  apply bind_ok in H as (q0 & Hq0 & H). destruct (nd_sol q0) as [s0|]; [|discriminate].
  apply bind_ok in H as (d & Hd & H). apply bind_ok in H as (s0' & Hs0 & H). apply bind_ok in H as (s & Hs & H).
  apply bind_ok in H as (q & Hq & H). apply bind_ok in H as (q1 & Hq1 & H). apply sgt in H as [B H]. cbv zeta in H.
  apply bind_ok in H as (b & Hb & H). destruct b; [|discriminate]. injection H as <-. apply get_ok in Hq.
  assert (NA : no_add h q = true). { repeat (apply andb_true_iff in B as [B ?]). assumption. }
  assert (T1 : TP (setn h k0 (set_sol s0'))).
  { apply (TP_grow h); [now split|apply g_one, p_sol|]. intros _. apply pure_set; auto. }
  assert (E : exists q', nth_error (setn h k0 (set_sol s0')) i = Some q' /\ nd_kids q' = nd_kids q).
  { rewrite nth_setn. destruct (Nat.eqb k0 i); rewrite Hq; cbn; eauto. }
  destruct E as (q' & E & Kq).
  assert (P2 : pure (append (setn h k0 (set_sol s0')) i [mkfill e v (TId IByParts) i s (Some [])])).
  { eapply (pure_app _ _ _ _ false); [apply T1|exact E|apply T1| |].
    - intros k c Hk Hc. rewrite Kq in Hk. rewrite nth_setn in Hc. destruct (Nat.eqb k0 k); [|now apply (no_add_kids h q k)].
      destruct (nth_error h k) as [c0|] eqn:Hc0; [|discriminate]. injection Hc as <-. exact (no_add_kids h q k c0 NA Hk Hc0).
    - repeat constructor. }
  destruct k1 as [k|]; repeat (apply pure_set; [now split|]); exact P2.
Qed.
Lemma bp_forward_pure h i v e t h' : bp_forward fk h i v e t = Ok h' -> TP h -> TP h'.
Proof.
  destruct t as [[u du] w]. intros H HP. assert (G := H). apply bp_forward_grow in G.
  unfold bp_forward in H. apply bind_ok in H as (c1 & H1 & H). apply bind_ok in H as (i2 & H2 & H).
  apply bind_ok in H as (f0 & Hf0 & H). destruct (negb (contains v f0)).
  - apply (TP_grow _ _ HP G). intros [HT U].
    apply bind_ok in H as (f & Hf & H). apply bind_ok in H as (d & Hd & H). apply bind_ok in H as (s & Hs & H).
    apply bind_ok in H as (q & Hq & H). apply sgt in H as [B H]. injection H as <-. apply get_ok in Hq. apply andb_true_iff in B as [_ B].
    apply pure_set; [now split|]. eapply (pure_app _ _ _ _ false); eauto. intros k c; now apply no_add_kids.
  - destruct (last_bp h i) as [mi|]; [|eapply bp_funky_pure; eauto].
    apply bind_ok in H as (m & Hm & H). apply bind_ok in H as (sf & Hsf & H).
    destruct (contains v sf); [eapply bp_funky_pure|eapply bp_cyclic2_pure]; eauto.
Qed.
Lemma h_usub_pure k s i o s' : h_usub fk nm k s i o = Ok s' -> TP (fst s) -> TP (fst s').
Proof.
  destruct s as [h x]. intros H HP. unfold h_usub in H. destruct o as [[u g]|]; [|injection H as <-; auto].
  apply bind_ok in H as (h' & H1 & H). injection H as <-. eapply add1_pure; eauto. discriminate.
Qed.
Lemma heuristics_pure s i s' : heuristics fk rng nm n s i = Ok s' -> TP (fst s) -> TP (fst s').
Proof.
  intros H HP. unfold heuristics in H. apply bind_ok in H as (q & Hq & H). cbv zeta in H.
  apply bind_ok in H as (s1 & H1 & H). apply bind_ok in H1 as (o1 & _ & H1). apply h_usub_pure in H1; auto.
  apply bind_ok in H as (s2 & H2 & H). apply bind_ok in H2 as (o2 & _ & H2). apply bind_ok in H2 as (h2 & H2 & E2).
  injection E2 as <-. apply add_id_pure in H2; auto.
  apply bind_ok in H as (s3 & H3 & H).
  assert (G3 : TP (fst s3)).
  { destruct (match last_tr ex_pa _ i with Some (TUSub UInvTrig _) => true | _ => false end); [injection H3 as <-; exact H2|].
    apply bind_ok in H3 as (o3 & _ & H3). apply h_usub_pure in H3; auto. }
  clear H3. apply bind_ok in H as (s4 & H4 & H).
  assert (G4 : TP (fst s4)).
  { unfold h_byparts in H4. destruct s3 as [h x]. apply bind_ok in H4 as ([o x1] & _ & H4). destruct o as [t|].
    - apply bind_ok in H4 as (h' & H4 & E). injection E as <-. eapply bp_forward_pure; eauto.
    - injection H4 as <-. exact G3. }
  clear H4. apply bind_ok in H as (s5 & H5 & H). apply bind_ok in H5 as (h5 & H5 & E5). injection E5 as <-. cbn [fst snd] in *.
  assert (G5 : TP h5).
  { unfold h_rewtrig in H5. destruct (is_id IRewTrig _); [injection H5 as <-; exact G4|]. apply bind_ok in H5 as (o & _ & H5).
    destruct o as [l|]; [|injection H5 as <-; exact G4]. apply bind_ok in H5 as (h' & H5 & E). injection E as <-.
    apply TP_ty; [|discriminate]. refine (foldM_inv _ TP _ _ _ _ H5 G4). intros h0 a h1 E. eapply add1_pure; eauto. discriminate. }
  apply bind_ok in H as (s6 & H6 & H). apply bind_ok in H6 as (o6 & _ & H6). apply bind_ok in H6 as (h6 & H6 & E6).
  injection E6 as <-. apply add_id_pure in H6; auto. cbn [fst snd] in *.
  apply bind_ok in H as (s7 & H7 & H).
  assert (G7 : TP (fst s7)).
  { unfold h_inv in H7. destruct (match last_tr ex_pa _ i with Some (TUSub UTrig2 _) => true | _ => false end); [injection H7 as <-; exact H6|].
    apply bind_ok in H7 as (o7 & _ & H7). destruct o7 as [[u g]|]; [|injection H7 as <-; exact H6]. cbv zeta in H7.
    apply bind_ok in H7 as (h1 & Ha & H7). apply add1_pure in Ha; [|discriminate|exact H6]. apply bind_ok in H7 as (o & _ & H7).
    destruct o as [r|]; [|injection H7 as <-; exact Ha]. destruct (dropped _ _ _); [injection H7 as <-; exact Ha|].
    apply bind_ok in H7 as (h2' & Hb & H7). injection H7 as <-. apply add_id_pure in Hb; auto. }
  apply bind_ok in H as (s8 & H8 & H). apply bind_ok in H8 as (o8 & _ & H8). apply bind_ok in H8 as (h8 & H8 & E8).
  injection E8 as <-. apply add_id_pure in H8; auto. apply bind_ok in H as (o9 & _ & H). apply h_usub_pure in H; auto.
Qed.
Lemma heuristically_pure s i s' : heuristically fk rng nm n s i = Ok s' -> TP (fst s) -> TP (fst s').
Proof.
  intros H HP. unfold heuristically in H. apply bind_ok in H as ([h x] & H1 & H). apply heuristics_pure in H1; auto. cbn [fst] in H1.
  apply bind_ok in H as (b & Hb & H). destruct b; [injection H as <-; exact H1|].
  apply bind_ok in H as (q & Hq & H). destruct (nd_kids q) as [|k ks] eqn:K.
  - injection H as <-. apply TP_ty; [exact H1|discriminate].
  - refine (foldM_inv _ (fun s => TP (fst s)) _ (fun b a b' => safely_pure n b a b') _ _ H _). cbn [fst].
    destruct ks; auto. apply TP_ty; [exact H1|discriminate].
Qed.
Lemma cycle_pure bf s i s' a : cycle fk rng nm n bf s i = Ok (s', a) -> TP (fst s) -> TP (fst s').
Proof.
  destruct s as [h x]. intros H HP. unfold cycle in H. apply bind_ok in H as (l & Hl & H). apply bind_ok in H as (h1 & H1 & H).
  apply bind_ok in H as (ul & Hu & H). assert (P1 : TP h1) by exact (foldM_inv _ TP _ check_pure _ _ H1 HP). destruct ul as [|j ul].
  - injection H as <- <-. exact P1.
  - apply bind_ok in H as (s1 & H2 & H). apply heuristically_pure in H2; auto. apply bind_ok in H as (a1 & _ & H).
    injection H as <- <-. exact H2.
Qed.
Lemma run_pure bf k : forall s c s', Search.run fk rng nm n bf k s c = Ok s' -> TP (fst s) -> TP (fst s').
Proof.
  induction k as [|k IH]; intros s c s' H HP; cbn [Search.run] in H; (destruct c as [i|]; [|discriminate]);
    apply bind_ok in H as ([s1 a] & H1 & H); apply cycle_pure in H1; auto.
  - injection H as <-. exact H1.
  - apply bind_ok in H as (fin & _ & H). destruct fin; [injection H as <-; exact H1|].
    destruct a; [apply bind_ok in H as (j & _ & H)| |]; eapply IH; eauto.
Qed.
Lemma TP_root e v : TP [mkroot e v].
Proof.
  split; [apply Tree_root|]. intros [|i] m H; [|destruct i; discriminate]. injection H as <-. intros k1 k2 c1 c2 [].
Qed.
(** every tree of a monitored integration *)
Theorem monitored_unmixed bf k e v s0 s1 c : safely fk rng nm n n ([mkroot e v], 0) 0 = Ok s0 ->
  Search.run fk rng nm n bf k s0 c = Ok s1 -> unmixed (fst s1).
Proof. intros H0 H1. apply pure_unmixed. eapply run_pure; eauto. eapply safely_pure; eauto. apply TP_root. Qed.
End Pure.

Section Scope.
Context (PF : (string -> Prop) -> expr -> Prop) (HPF : forall S, Her.HerF (PF S)).
Context (PFm : forall (S S' : string -> Prop) e, (forall s, S s -> S' s) -> PF S e -> PF S' e).
Context (PFs : forall (S : string -> Prop) s, PF S (ESym s) <-> S s).
Context (fk : fkern) (HF : forall S, Her.FHer (PF S) fk) (HS : k_strict fk = true).
Context (Heq : forall s, k_eq fk (ESym s) (ESym s) <> Ok false).
Context (rng : string -> expr -> bool) (nm : nat -> string) (n : nat).
Theorem integrate_scope_strict S0 bf k fin e v r : integrate fk rng nm n bf k fin e v = Ok (Some r) ->
  PF (fun s => S0 s \/ s = v) e -> PF (fun s => S0 s \/ s = v) r.
Proof.
  intros H He. destruct (integrate_scope PF HPF PFm PFs fk HF Heq rng nm n S0 bf k fin e v r H He) as (e0 & s1 & H1 & s2 & H2 & R).
  apply R. eapply monitored_unmixed; eauto.
Qed.
End Scope.
