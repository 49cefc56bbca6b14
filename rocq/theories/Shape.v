(** * Shape: the form of the search tree, for the plain code (any kernel, no monitor).

    Every change the search makes to its heap is one of the four changes of [prim]; whatever these
    preserve holds in every reachable heap. *)
From Coquelicot Require Import Coquelicot.
From Verif Require Export SearchSound.
Close Scope R_scope.
Open Scope nat_scope.

Lemma guard_inv {A} b (r : res A) a : guard b r = Ok a -> r = Ok a.
Proof. unfold guard. destruct b; auto; discriminate. Qed.

(** a new child of [p]: it has no children, knows its parent, is not an (unmarked) repetition, and if
    it is marked as solved it has a solution *)
Definition fresh (h : heap) (p : nat) (c : node) : Prop :=
  nd_p c = Some p /\ nd_kids c = [] /\ nd_t c <> None /\
  (nd_fill c = false -> dropped h p c = false) /\
  (nd_ty c = SOLUTION -> nd_sol c <> None).

Inductive prim : heap -> heap -> Prop :=
| p_ty h i t : t <> SOLUTION -> prim h (setn h i (set_ty t))
| p_solve h i a : prim h (setn (setn h i (set_ty SOLUTION)) i (set_sol a))
| p_sol h i a : prim h (setn h i (set_sol a))
| p_only h i l : prim h (setn h i (set_only l))
| p_app h p q cs : nth_error h p = Some q -> Forall (fresh h p) cs -> prim h (append h p cs).

Inductive grow : heap -> heap -> Prop :=
| g_refl h : grow h h
| g_step h1 h2 h3 : prim h1 h2 -> grow h2 h3 -> grow h1 h3.
Lemma g_one a b : prim a b -> grow a b.
Proof. intros H. eapply g_step; eauto using g_refl. Qed.
Lemma g_trans a b c : grow a b -> grow b c -> grow a c.
Proof. intros H1 H2. induction H1; auto. eapply g_step; eauto. Qed.

Lemma anc_ext h h' : (forall j, option_map core (nth_error h j) = option_map core (nth_error h' j)) ->
  forall f i, anc f h i = anc f h' i.
Proof.
  intros E f. induction f as [|f IH]; intros i; cbn [anc]; auto. f_equal. specialize (E i).
  destruct (nth_error h i) as [q|], (nth_error h' i) as [q'|]; cbn in E; try discriminate; auto.
  injection E as E1 E2 E3 E4. rewrite E4. destruct (nd_p q'); auto.
Qed.
Lemma dropped_ext h h' p c : (forall j, option_map core (nth_error h j) = option_map core (nth_error h' j)) ->
  dropped h p c = dropped h' p c.
Proof.
  intros E. unfold dropped, parents. f_equal. rewrite (anc_ext h h' E).
  induction (anc (S p) h' p) as [|j l IH]; cbn [existsb]; auto. rewrite IH. f_equal. specialize (E j).
  destruct (nth_error h j) as [q|], (nth_error h' j) as [q'|]; cbn in E; try discriminate; auto.
  injection E as E1 E2 E3 E4. now rewrite E1, E2.
Qed.
Lemma core_setn h i f : (forall q, core (f q) = core q) ->
  forall j, option_map core (nth_error h j) = option_map core (nth_error (setn h i f) j).
Proof.
  intros Hf j. rewrite nth_setn. destruct (Nat.eqb i j); auto. destruct (nth_error h j); cbn; auto. now rewrite Hf.
Qed.

Section Grow.
Context (fk : fkern) (rng : string -> expr -> bool) (nm : nat -> string) (n : nat).

Lemma fresh_mkn h p e v t : dropped h p (mkn e v t p) = false -> fresh h p (mkn e v t p).
Proof. intros H. unfold fresh. splits; auto; cbn; try discriminate. Qed.
Lemma fresh_fill h p e v t s o : fresh h p (mkfill e v t p s o).
Proof. unfold fresh. splits; cbn; auto; discriminate. Qed.

Lemma add1_grow h p e v t h' : add1 fk h p (mkn e v t p) = Ok h' -> grow h h'.
Proof.
  intros H. unfold add1 in H. apply bind_ok in H as (q & Hq & H). apply guard_inv in H. injection H as <-.
  destruct (dropped h p (mkn e v t p)) eqn:D; [apply g_refl|]. apply g_one. apply get_ok in Hq.
  eapply p_app; eauto. constructor; auto. now apply fresh_mkn.
Qed.
Lemma add_id_grow k h i v o h' : add_id fk k h i v o = Ok h' -> grow h h'.
Proof. intros H. destruct o as [e|]; [eapply add1_grow; eauto|]. injection H as <-. apply g_refl. Qed.
Lemma additivity_grow h p v ts h' : additivity fk h p v ts = Ok h' -> grow h h'.
Proof.
  intros H. unfold additivity in H. apply bind_ok in H as (q & Hq & H). apply guard_inv in H. injection H as <-.
  apply get_ok in Hq. eapply g_step; [apply (p_ty h p AND); discriminate|]. apply g_one. eapply p_app.
  - rewrite nth_setn, Nat.eqb_refl, Hq. reflexivity.
  - apply Forall_forall. intros c Hc. apply filter_In in Hc as [Hc D]. apply in_map_iff in Hc as (t & <- & _).
    apply fresh_mkn. rewrite <- (dropped_ext h); [|now apply core_setn]. now apply negb_true_iff.
Qed.
Lemma foldM_grow {A} (f : heap -> A -> res heap) l : (forall h a h', f h a = Ok h' -> grow h h') ->
  forall h h', foldM f l h = Ok h' -> grow h h'.
Proof.
  intros Hf. induction l as [|a l IH]; intros h h' H; cbn [foldM] in H; [injection H as <-; apply g_refl|].
  apply bind_ok in H as (h1 & H1 & H). eapply g_trans; eauto.
Qed.
Lemma foldM_grow2 {A} (f : st -> A -> res st) l : (forall s a s', f s a = Ok s' -> grow (fst s) (fst s')) ->
  forall s s', foldM f l s = Ok s' -> grow (fst s) (fst s').
Proof.
  intros Hf. induction l as [|a l IH]; intros h h' H; cbn [foldM] in H; [injection H as <-; apply g_refl|].
  apply bind_ok in H as (h1 & H1 & H). eapply g_trans; eauto.
Qed.
Lemma safe_step_grow s i s' : safe_step fk rng nm n s i = Ok s' -> grow (fst s) (fst s').
Proof.
  destruct s as [h x]. intros H. unfold safe_step in H. apply bind_ok in H as (q & Hq & H). cbn [fst].
  assert (R : match nd_e q with ESum ts => h' <- additivity fk h i (nd_v q) ts;; Ok (h', x) | _ => Ok s' end = Ok s' ->
    grow h (fst s')).
  { destruct (nd_e q); intros E; try (clear E). all: try (repeat match type of H with
      | bind _ _ = Ok _ => let z := fresh "z" in let Hz := fresh "Hz" in apply bind_ok in H as (z & Hz & H)
      | (match ?o with Some _ => _ | None => _ end) = Ok _ => destruct o as [?|]
      | (let '(_, _) := ?o in _) = Ok _ => destruct o as [? ?]
      | Ok _ = Ok _ => injection H as <-; cbn [fst]
      end; solve [apply g_refl | eapply add1_grow; eassumption | eapply add_id_grow; eassumption
                 | eapply additivity_grow; eassumption]). }
  apply R. destruct (nd_e q); auto.
Qed.
Lemma safely_grow k : forall s i s', safely fk rng nm n k s i = Ok s' -> grow (fst s) (fst s').
Proof.
  induction k as [|k IH]; intros s i s' H; cbn [safely] in H; [discriminate|].
  apply bind_ok in H as (s1 & H1 & H). apply bind_ok in H as (q & Hq & H). apply safe_step_grow in H1.
  eapply g_trans; [exact H1|]. eapply foldM_grow2; eauto.
Qed.
Lemma check_grow h i h' : check_solvable fk h i = Ok h' -> grow h h'.
Proof.
  intros H. unfold check_solvable in H. apply bind_ok in H as (q & Hq & H). apply bind_ok in H as (o & Ho & H).
  destruct o as [a|]; [apply guard_inv in H|]; injection H as <-; [apply g_one, p_solve|apply g_refl].
Qed.
Lemma backward_grow h i h' : backward fk h i = Ok h' -> grow h h'.
Proof.
  intros H. unfold backward in H. apply bind_ok in H as (q & Hq & H).
  destruct (nd_sol q); [|discriminate]. destruct (nd_t q); [|discriminate]. destruct (nd_p q); [|discriminate].
  apply bind_ok in H as (m & Hm & H). apply bind_ok in H as (r & Hr & H). apply guard_inv in H. injection H as <-.
  apply g_one, p_sol.
Qed.
Lemma climb_grow k : forall h i h', climb fk k h i = Ok h' -> grow h h'.
Proof.
  induction k as [|k IH]; intros h i h' H; cbn [climb] in H; [discriminate|]. apply bind_ok in H as (q & Hq & H).
  destruct (nd_p q) as [p|]; [|injection H as <-; apply g_refl]. apply bind_ok in H as (o & Ho & H).
  destruct o as [h1|]; [|injection H as <-; apply g_refl].
  eapply g_trans; [eapply backward_grow|eauto]. unfold catchV in Ho.
  destruct (backward fk h i) as [h2|x|s] eqn:E; [injection Ho as ->; exact E|destruct x; discriminate|discriminate].
Qed.
Lemma go_backwards_grow h h' s : go_backwards fk h = Ok (h', s) -> grow h h'.
Proof.
  intros H. unfold go_backwards in H. apply bind_ok in H as (b & Hb & H). destruct b; [|discriminate].
  apply bind_ok in H as (l & Hl & H). apply bind_ok in H as (ls & Hls & H). apply bind_ok in H as (h1 & Hf & H).
  apply bind_ok in H as (q & Hq & H). destruct (nd_sol q); [|discriminate]. injection H as <- <-.
  eapply foldM_grow; [|exact Hf]. intros h0 a h2 E. exact (climb_grow _ _ _ _ E).
Qed.
Lemma bp_funky_grow h i v e c1 i2 h' : bp_funky fk h i v e c1 i2 = Ok h' -> grow h h'.
Proof.
  intros H. unfold bp_funky in H. apply bind_ok in H as (q & Hq & H). apply get_ok in Hq. apply guard_inv in H. cbv zeta in H.
  apply guard_inv in H. injection H as <-.
  set (fn := {| nd_e := e |}). eapply g_step; [eapply (p_app h i q [fn]); eauto|].
  { constructor; auto. unfold fresh, fn. splits; cbn; auto; discriminate. }
  apply g_one. eapply (p_app _ (List.length h) fn).
  - unfold append. rewrite nth_setn. assert (N : Nat.eqb i (List.length h) = false) by (apply Nat.eqb_neq; apply nth_lt in Hq; lia).
    rewrite N. rewrite nth_error_app2, Nat.sub_diag by lia. reflexivity.
  - constructor; [apply fresh_fill|]. destruct (dropped _ _ _) eqn:D; constructor; auto. now apply fresh_mkn.
Qed.
Lemma bp_cyclic2_grow h i mi v e c1 i2 h' : bp_cyclic2 fk h i mi v e c1 i2 = Ok h' -> grow h h'.
Proof.
  intros H. unfold bp_cyclic2 in H. apply bind_ok in H as (m & Hm & H). apply bind_ok in H as ([ff k1] & Hf & H).
  apply bind_ok in H as (sf & Hsf & H). apply bind_ok in H as (f & Hff & H). destruct (nd_kids m) as [|k0 ks]; [discriminate|].
  apply bind_ok in H as (q0 & Hq0 & H). destruct (nd_sol q0) as [s0|]; [|discriminate].
  apply bind_ok in H as (d & Hd & H). apply bind_ok in H as (s0' & Hs0 & H). apply bind_ok in H as (s & Hs & H).
  apply bind_ok in H as (q & Hq & H). apply bind_ok in H as (q1 & Hq1 & H). apply guard_inv in H. cbv zeta in H.
  apply bind_ok in H as (b & Hb & H). destruct b; [|discriminate]. injection H as <-. apply get_ok in Hq.
  eapply g_step; [apply (p_sol h k0 s0')|].
  assert (E : exists q', nth_error (setn h k0 (set_sol s0')) i = Some q').
  { rewrite nth_setn. destruct (Nat.eqb k0 i); rewrite Hq; cbn; eauto. }
  destruct E as [q' E]. eapply g_step; [eapply p_app; [exact E|constructor; [apply (fresh_fill _ i e v (TId IByParts) s (Some []))|constructor]]|].
  eapply g_step; [apply (p_ty _ i OR); discriminate|]. eapply g_step; [apply (p_only _ i [List.length h])|].
  destruct k1 as [k|]; [|apply g_refl]. eapply g_step; [apply (p_only _ k [i])|]. apply g_refl.
Qed.
Lemma bp_forward_grow h i v e t h' : bp_forward fk h i v e t = Ok h' -> grow h h'.
Proof.
  destruct t as [[u du] w]. intros H. unfold bp_forward in H. apply bind_ok in H as (c1 & H1 & H). apply bind_ok in H as (i2 & H2 & H).
  apply bind_ok in H as (f0 & Hf0 & H). destruct (negb (contains v f0)).
  - apply bind_ok in H as (f & Hf & H). apply bind_ok in H as (d & Hd & H). apply bind_ok in H as (s & Hs & H).
    apply bind_ok in H as (q & Hq & H). apply guard_inv in H. injection H as <-. apply get_ok in Hq.
    eapply g_step; [eapply p_app; [exact Hq|constructor; [apply (fresh_fill _ i e v (TId IByParts) s None)|constructor]]|].
    apply g_one. apply (p_ty _ i OR). discriminate.
  - destruct (last_bp h i) as [mi|]; [|eapply bp_funky_grow; eauto].
    apply bind_ok in H as (m & Hm & H). apply bind_ok in H as (sf & Hsf & H).
    destruct (contains v sf); [eapply bp_funky_grow|eapply bp_cyclic2_grow]; eauto.
Qed.
Lemma h_usub_grow k s i o s' : h_usub fk nm k s i o = Ok s' -> grow (fst s) (fst s').
Proof.
  destruct s as [h x]. intros H. unfold h_usub in H. destruct o as [[u g]|]; [|injection H as <-; apply g_refl].
  apply bind_ok in H as (h' & H1 & H). injection H as <-. eapply add1_grow; eauto.
Qed.
Lemma heuristics_grow s i s' : heuristics fk rng nm n s i = Ok s' -> grow (fst s) (fst s').
Proof.
  intros H. unfold heuristics in H. apply bind_ok in H as (q & Hq & H). cbv zeta in H.
  apply bind_ok in H as (s1 & H1 & H). apply bind_ok in H1 as (o1 & _ & H1). apply h_usub_grow in H1.
  apply bind_ok in H as (s2 & H2 & H). apply bind_ok in H2 as (o2 & _ & H2). apply bind_ok in H2 as (h2 & H2 & E2).
  injection E2 as <-. apply add_id_grow in H2.
  apply bind_ok in H as (s3 & H3 & H).
  assert (G3 : grow h2 (fst s3)).
  { destruct (match last_tr ex_pa _ i with Some (TUSub UInvTrig _) => true | _ => false end); [injection H3 as <-; apply g_refl|].
    apply bind_ok in H3 as (o3 & _ & H3). apply h_usub_grow in H3. exact H3. }
  clear H3. apply bind_ok in H as (s4 & H4 & H).
  assert (G4 : grow (fst s3) (fst s4)).
  { unfold h_byparts in H4. destruct s3 as [h x]. apply bind_ok in H4 as ([o x1] & _ & H4). destruct o as [t|].
    - apply bind_ok in H4 as (h' & H4 & E). injection E as <-. eapply bp_forward_grow; eauto.
    - injection H4 as <-. apply g_refl. }
  clear H4. apply bind_ok in H as (s5 & H5 & H). apply bind_ok in H5 as (h5 & H5 & E5). injection E5 as <-.
  assert (G5 : grow (fst s4) h5).
  { unfold h_rewtrig in H5. destruct (is_id _ _); [injection H5 as <-; apply g_refl|]. apply bind_ok in H5 as (o & _ & H5).
    destruct o as [l|]; [|injection H5 as <-; apply g_refl]. apply bind_ok in H5 as (h' & H5 & E). injection E as <-.
    eapply g_trans; [eapply foldM_grow; [|exact H5]|apply g_one, p_ty; discriminate]. intros h0 a h1 E. exact (add1_grow _ _ _ _ _ _ E). }
  clear H5. apply bind_ok in H as (s6 & H6 & H). apply bind_ok in H6 as (o6 & _ & H6). apply bind_ok in H6 as (h6 & H6 & E6).
  injection E6 as <-. apply add_id_grow in H6. cbn [fst snd] in *.
  apply bind_ok in H as (s7 & H7 & H).
  assert (G7 : grow h6 (fst s7)).
  { unfold h_inv in H7. destruct (match last_tr ex_pa _ i with Some (TUSub UTrig2 _) => true | _ => false end); [injection H7 as <-; apply g_refl|].
    apply bind_ok in H7 as (o & _ & H7). destruct o as [[u g]|]; [|injection H7 as <-; apply g_refl]. cbv zeta in H7.
    apply bind_ok in H7 as (h1 & Ha & H7). apply add1_grow in Ha. apply bind_ok in H7 as (o & _ & H7).
    destruct o as [r|]; [|injection H7 as <-; exact Ha]. destruct (dropped _ _ _); [injection H7 as <-; exact Ha|].
    apply bind_ok in H7 as (h2' & Hb & H7). injection H7 as <-. apply add_id_grow in Hb. eapply g_trans; eauto. }
  clear H7. apply bind_ok in H as (s8 & H8 & H). apply bind_ok in H8 as (o8 & _ & H8). apply bind_ok in H8 as (h8 & H8 & E8).
  injection E8 as <-. apply add_id_grow in H8. apply bind_ok in H as (o9 & _ & H). apply h_usub_grow in H. cbn [fst] in *.
  eauto 10 using g_trans.
Qed.
Lemma heuristically_grow s i s' : heuristically fk rng nm n s i = Ok s' -> grow (fst s) (fst s').
Proof.
  intros H. unfold heuristically in H. apply bind_ok in H as ([h x] & H1 & H). apply heuristics_grow in H1. cbn [fst] in H1.
  eapply g_trans; [exact H1|]. apply bind_ok in H as (b & Hb & H). destruct b; [injection H as <-; apply g_refl|].
  apply bind_ok in H as (q & Hq & H). destruct (nd_kids q) as [|k ks] eqn:K.
  - injection H as <-. apply g_one, p_ty. discriminate.
  - eapply (foldM_grow2 _ _ (safely_grow n)) in H. cbn [fst] in H. eapply g_trans; [|exact H].
    destruct ks; [apply g_refl|apply g_one, p_ty; discriminate].
Qed.
Lemma cycle_grow bf s i s' a : cycle fk rng nm n bf s i = Ok (s', a) -> grow (fst s) (fst s').
Proof.
  destruct s as [h x]. intros H. unfold cycle in H. apply bind_ok in H as (l & Hl & H). apply bind_ok in H as (h1 & H1 & H).
  apply bind_ok in H as (ul & Hu & H). apply (foldM_grow _ _ check_grow) in H1. destruct ul as [|j ul].
  - injection H as <- <-. exact H1.
  - apply bind_ok in H as (s1 & H2 & H). apply heuristically_grow in H2. apply bind_ok in H as (a1 & _ & H).
    injection H as <- <-. eapply g_trans; eauto.
Qed.
Lemma run_grow bf k : forall s c s', run fk rng nm n bf k s c = Ok s' -> grow (fst s) (fst s').
Proof.
  induction k as [|k IH]; intros s c s' H; cbn [run] in H; (destruct c as [i|]; [|discriminate]);
    apply bind_ok in H as ([s1 a] & H1 & H); apply cycle_grow in H1.
  - injection H as <-. exact H1.
  - apply bind_ok in H as (fin & _ & H). destruct fin; [injection H as <-; exact H1|].
    destruct a; [apply bind_ok in H as (j & _ & H)| |]; apply IH in H; eapply g_trans; eauto.
Qed.
End Grow.

(** ** Invariants of every reachable heap *)
(** parent pointers and child lists describe one tree with root 0 *)
Definition Tree (h : heap) : Prop := forall i q, nth_error h i = Some q ->
  (forall k, In k (nd_kids q) -> i < k /\ exists q', nth_error h k = Some q' /\ nd_p q' = Some i) /\
  NoDup (nd_kids q) /\
  match nd_p q with
  | None => i = 0
  | Some p => p < i /\ exists m, nth_error h p = Some m /\ In i (nd_kids m)
  end.
(** [j] is above [i] *)
Inductive above (h : heap) (j : nat) : nat -> Prop :=
| ab_par i q : nth_error h i = Some q -> nd_p q = Some j -> above h j i
| ab_up i q p : nth_error h i = Some q -> nd_p q = Some p -> above h j p -> above h j i.
(** no integrand is repeated below itself *)
Definition NoRep (h : heap) : Prop := forall i q j m, nth_error h i = Some q -> nd_fill q = false ->
  above h j i -> nth_error h j = Some m -> eq_with_var (nd_v m) (nd_v q) (nd_e m) (nd_e q) = false.
(** a node marked as solved has a solution *)
Definition SolSet (h : heap) : Prop := forall i q, nth_error h i = Some q -> nd_ty q = SOLUTION -> nd_sol q <> None.

Lemma nth_append h p cs j : nth_error (append h p cs) j =
  if Nat.eqb p j then option_map (add_kids (seq (List.length h) (List.length cs))) (nth_error (h ++ cs) j) else nth_error (h ++ cs) j.
Proof. unfold append. apply nth_setn. Qed.
(** nodes of an enlarged heap: an old one, possibly with the new children, or a new one *)
Lemma append_cases h p cs j q : nth_error (append h p cs) j = Some q -> p < List.length h ->
  (exists q0, nth_error h j = Some q0 /\ core q = core q0 /\ nd_ty q = nd_ty q0 /\ nd_sol q = nd_sol q0 /\ nd_fill q = nd_fill q0 /\
     nd_kids q = nd_kids q0 ++ (if Nat.eqb p j then seq (List.length h) (List.length cs) else [])) \/
  (List.length h <= j /\ In q cs).
Proof.
  intros H Hp. rewrite nth_append in H. destruct (Nat.ltb_spec j (List.length h)) as [L|L].
  - left. rewrite nth_error_app1 in H by auto. destruct (Nat.eqb p j) eqn:E.
    + destruct (nth_error h j) as [q0|]; [|discriminate]. injection H as <-. exists q0. splits; auto.
    + exists q. splits; auto; now rewrite app_nil_r.
  - right. split; auto. destruct (Nat.eqb_spec p j); [lia|]. rewrite nth_error_app2 in H by auto. now apply nth_error_In in H.
Qed.
Lemma append_old h p cs j q0 : nth_error h j = Some q0 -> exists q, nth_error (append h p cs) j = Some q /\ core q = core q0 /\
  nd_kids q = nd_kids q0 ++ (if Nat.eqb p j then seq (List.length h) (List.length cs) else []).
Proof.
  intros H. rewrite nth_append, (nth_app_l _ _ _ _ H). destruct (Nat.eqb p j); cbn; eexists; splits; eauto. now rewrite app_nil_r.
Qed.
Lemma append_new h p cs k : k < List.length cs -> p < List.length h -> exists q, nth_error cs k = Some q /\ nth_error (append h p cs) (List.length h + k) = Some q.
Proof.
  intros H Hp. destruct (nth_error cs k) as [q|] eqn:E; [|apply nth_error_None in E; lia]. exists q. split; auto.
  rewrite nth_append. destruct (Nat.eqb_spec p (List.length h + k)); [lia|]. rewrite nth_error_app2 by lia. rewrite <- E. f_equal. lia.
Qed.

Lemma Tree_set h i f : (forall q, core (f q) = core q /\ nd_kids (f q) = nd_kids q) -> Tree h -> Tree (setn h i f).
Proof.
  intros Hf HT.
  assert (Up : forall j q, nth_error h j = Some q -> exists q', nth_error (setn h i f) j = Some q' /\ core q' = core q /\ nd_kids q' = nd_kids q).
  { intros j q H. rewrite nth_setn, H. destruct (Nat.eqb i j); cbn; [|eauto]. exists (f q). destruct (Hf q). splits; auto. }
  assert (Dn : forall j q, nth_error (setn h i f) j = Some q -> exists q', nth_error h j = Some q' /\ core q' = core q /\ nd_kids q' = nd_kids q).
  { intros j q H. rewrite nth_setn in H. destruct (Nat.eqb i j); [|eauto]. destruct (nth_error h j) as [q0|]; [|discriminate].
    injection H as <-. exists q0. destruct (Hf q0). splits; auto. }
  intros j q H. apply Dn in H as (q0 & H & C & K). apply HT in H as (A1 & A2 & A3). rewrite <- K.
  assert (E : nd_p q = nd_p q0) by (unfold core in C; injection C; congruence). rewrite E. splits; auto.
  - intros k Hk. apply A1 in Hk as (L & q' & Hk & P). split; auto. apply Up in Hk as (q1 & Hk & C1 & _). exists q1. split; auto.
    unfold core in C1. injection C1. congruence.
  - destruct (nd_p q0) as [p|]; auto. destruct A3 as (L & m & Hm & I). split; auto. apply Up in Hm as (m1 & Hm & _ & Km).
    exists m1. split; auto. now rewrite Km.
Qed.
Lemma Tree_app h p q cs : nth_error h p = Some q -> Forall (fresh h p) cs -> Tree h -> Tree (append h p cs).
Proof.
  intros Hp HF HT. pose proof (nth_lt _ _ _ Hp) as Lp. rewrite Forall_forall in HF. intros j r H.
  apply append_cases in H as H'; auto. destruct H' as [(r0 & H0 & C & _ & _ & _ & K)|(L & I)].
  - pose proof (nth_lt _ _ _ H0) as Lj. apply HT in H0 as (A1 & A2 & A3). rewrite K.
    assert (E : nd_p r = nd_p r0) by (unfold core in C; injection C; congruence). rewrite E. splits.
    + intros k Hk. apply in_app_iff in Hk as [Hk|Hk].
      * apply A1 in Hk as (L & q' & Hk & P). split; auto. apply (append_old h p cs) in Hk as (q1 & Hk & C1 & _). exists q1. split; auto.
        unfold core in C1. injection C1. congruence.
      * destruct (Nat.eqb_spec p j) as [->|]; [|contradiction]. apply in_seq in Hk. split; [lia|].
        destruct (append_new h j cs (k - List.length h)) as (c & Hc & Hn); [lia|auto|]. exists c.
        replace (List.length h + (k - List.length h)) with k in Hn by lia. split; auto. apply nth_error_In in Hc. apply HF in Hc as [P _]. exact P.
    + destruct (Nat.eqb p j); [|now rewrite app_nil_r].
      assert (Lk : forall k, In k (nd_kids r0) -> k < List.length h).
      { intros k Hk. apply A1 in Hk as (_ & q' & Hk & _). now apply nth_lt in Hk. }
      clear -A2 Lk. induction (nd_kids r0) as [|a l IH]; cbn; [apply seq_NoDup|]. inversion A2; subst. constructor.
      * rewrite in_app_iff, in_seq. intros [Hi|Hi]; [auto|]. specialize (Lk a (or_introl eq_refl)). lia.
      * apply IH; auto. intros k Hk. apply Lk. now right.
    + destruct (nd_p r0) as [p0|]; auto. destruct A3 as (L & m & Hm & I). split; auto.
      apply (append_old h p cs) in Hm as (m1 & Hm & _ & Km). exists m1. split; auto. rewrite Km. apply in_app_iff. now left.
  - apply HF in I as (P & K & _). rewrite K, P. splits.
    + intros k [].
    + constructor.
    + lia.
    + destruct (append_old h p cs _ _ Hp) as (q1 & Hq1 & _ & K1). exists q1. split; auto. rewrite K1, Nat.eqb_refl. apply in_app_iff.
      right. apply in_seq. apply nth_lt in H. unfold append in H. rewrite setn_length, app_length in H. lia.
Qed.
Lemma Tree_prim h h' : prim h h' -> Tree h -> Tree h'.
Proof.
  intros H HT. destruct H.
  - apply Tree_set; auto.
  - apply Tree_set; [|apply Tree_set]; auto.
  - apply Tree_set; auto.
  - apply Tree_set; auto.
  - eapply Tree_app; eauto.
Qed.
Theorem Tree_grow h h' : grow h h' -> Tree h -> Tree h'.
Proof. induction 1; auto. intros HT. apply IHgrow. eapply Tree_prim; eauto. Qed.
Lemma Tree_root e v : Tree [mkroot e v].
Proof. intros [|i] q H; [|destruct i; discriminate]. injection H as <-. cbn. split; [intros k []|]. split; [constructor|reflexivity]. Qed.

Lemma SolSet_prim h h' : prim h h' -> Tree h -> SolSet h -> SolSet h'.
Proof.
  intros H _ HS. destruct H; intros j r Hr Ty.
  - rewrite nth_setn in Hr. destruct (Nat.eqb i j); [|eauto]. destruct (nth_error h j) as [q0|] eqn:E; [|discriminate].
    injection Hr as <-. cbn in Ty. congruence.
  - rewrite !nth_setn in Hr. destruct (Nat.eqb i j); [|eauto]. destruct (nth_error h j) as [q0|] eqn:E; [|discriminate].
    injection Hr as <-. cbn. discriminate.
  - rewrite nth_setn in Hr. destruct (Nat.eqb i j); [|eauto]. destruct (nth_error h j) as [q0|] eqn:E; [|discriminate].
    injection Hr as <-. cbn. discriminate.
  - rewrite nth_setn in Hr. destruct (Nat.eqb i j); [|eauto]. destruct (nth_error h j) as [q0|] eqn:E; [|discriminate].
    injection Hr as <-. cbn in *. eauto.
  - apply append_cases in Hr as [(r0 & H1 & _ & T & S & _)|(_ & I)]; [| |now apply nth_lt in H].
    + rewrite S. rewrite T in Ty. eauto.
    + rewrite Forall_forall in H0. apply H0 in I as (_ & _ & _ & _ & G). auto.
Qed.

(** the nodes above, as computed by _parents *)
Lemma anc_above h : Tree h -> forall f i j, i < f -> above h j i -> forall q, nth_error h i = Some q ->
  exists p, nd_p q = Some p /\ p < i /\ In j (anc (f - 1) h p).
Proof.
  intros HT f. induction f as [|f IH]; intros i j Lf Ha q Hq; [lia|]. cbn [Nat.sub]. rewrite Nat.sub_0_r.
  pose proof (HT _ _ Hq) as (_ & _ & P). inversion Ha as [i' q' H1 H2|i' q' p H1 H2 H3]; subst; rewrite H1 in Hq; injection Hq as ->; rewrite H2 in P; destruct P as (L & m & Hm & _).
  - exists j. splits; auto. destruct f; [lia|]. now left.
  - exists p. splits; auto. destruct f as [|f]; [lia|]. apply IH with (q := m) in H3 as (p' & P1 & P2 & P3); auto; [|lia].
    cbn [anc]. right. rewrite Hm, P1. replace (S f - 1) with f in P3 by lia. exact P3.
Qed.
Lemma anc_mono h : Tree h -> forall f i j, i < f -> forall f', f <= f' -> In j (anc f' h i) -> In j (anc f h i).
Proof.
  intros HT f. induction f as [|f IH]; intros i j Lf f' Lf' H; [lia|]. destruct f' as [|f']; [lia|]. cbn [anc] in *.
  destruct H as [H|H]; [now left|right]. destruct (nth_error h i) as [q|] eqn:E; auto. destruct (nd_p q) as [p|] eqn:P; auto.
  pose proof (HT _ _ E) as (_ & _ & A). rewrite P in A. eapply (IH p j); [lia| |exact H]. lia.
Qed.
Lemma above_lt h j i : Tree h -> above h j i -> j < i.
Proof.
  intros HT H. induction H as [i q H1 H2|i q p H1 H2 H3 IH]; pose proof (HT _ _ H1) as (_ & _ & P); rewrite H2 in P; lia.
Qed.
Lemma above_ext h h' : (forall i q, nth_error h' i = Some q -> i < List.length h -> exists q0, nth_error h i = Some q0 /\ core q0 = core q) ->
  Tree h -> Tree h' -> List.length h <= List.length h' ->
  forall j i, i < List.length h -> above h' j i -> above h j i.
Proof.
  intros E HT HT' HL j i Li H. induction H as [i q H1 H2|i q p H1 H2 H3 IH].
  - apply E in H1 as (q0 & H1 & C); auto. apply (ab_par h j i q0); auto. unfold core in C. injection C. congruence.
  - pose proof (HT' _ _ H1) as (_ & _ & P). rewrite H2 in P. apply E in H1 as (q0 & H1 & C); auto.
    apply (ab_up h j i q0 p); auto; [|apply IH; lia]. unfold core in C. injection C. congruence.
Qed.
Lemma NoRep_set h i f : (forall q, core (f q) = core q /\ nd_kids (f q) = nd_kids q /\ nd_fill (f q) = nd_fill q) ->
  Tree h -> NoRep h -> NoRep (setn h i f).
Proof.
  intros Hf HT HN.
  assert (Dn : forall j q, nth_error (setn h i f) j = Some q -> exists q', nth_error h j = Some q' /\ core q' = core q /\ nd_fill q' = nd_fill q).
  { intros j q H. rewrite nth_setn in H. destruct (Nat.eqb i j); [|eauto]. destruct (nth_error h j) as [q0|]; [|discriminate].
    injection H as <-. exists q0. destruct (Hf q0) as (A & _ & C). splits; auto. }
  intros a q j m Ha Fa Ab Hm. assert (Ab' : above h j a).
  { revert Ab. apply above_ext; auto.
    - intros k r Hr _. apply Dn in Hr as (r' & H1 & H2 & _). eauto.
    - apply Tree_set; auto. intros r. destruct (Hf r) as (A & B & _). auto.
    - now rewrite setn_length.
    - apply Dn in Ha as (q' & Ha & _). now apply nth_lt in Ha. }
  apply Dn in Ha as (q0 & Ha & Ca & Fa'). apply Dn in Hm as (m0 & Hm & Cm & _).
  unfold core in Ca, Cm. injection Ca as E1 E2 _ _. injection Cm as E3 E4 _ _. rewrite <- E1, <- E2, <- E3, <- E4.
  rewrite <- Fa' in Fa. exact (HN a q0 j m0 Ha Fa Ab' Hm).
Qed.
Lemma NoRep_app h p q cs : nth_error h p = Some q -> Forall (fresh h p) cs -> Tree h -> NoRep h -> NoRep (append h p cs).
Proof.
  intros Hp HF HT HN. pose proof (nth_lt _ _ _ Hp) as Lp. pose proof (Tree_app h p q cs Hp HF HT) as HT'.
  assert (Dn : forall i r, nth_error (append h p cs) i = Some r -> i < List.length h -> exists r0, nth_error h i = Some r0 /\ core r0 = core r /\ nd_fill r0 = nd_fill r).
  { intros i r H L. apply append_cases in H as [(r0 & A & C & _ & _ & F & _)|[A _]]; auto; [exists r0; splits; auto|lia]. }
  assert (UpL : forall j i, i < List.length h -> above (append h p cs) j i -> above h j i).
  { apply above_ext; auto.
    - intros i r H L. apply Dn in H as (r0 & A & C & _); eauto.
    - unfold append. rewrite setn_length, app_length. lia. }
  intros a r j m Ha Fa Ab Hm. pose proof (above_lt _ _ _ HT' Ab) as Lja.
  destruct (Nat.lt_ge_cases a (List.length h)) as [L|L].
  - apply UpL in Ab; auto. apply Dn in Ha as (r0 & Ha & Ca & Fa'); auto. apply Dn in Hm as (m0 & Hm & Cm & _); [|lia].
    unfold core in Ca, Cm. injection Ca as E1 E2 _ _. injection Cm as E3 E4 _ _. rewrite <- E1, <- E2, <- E3, <- E4.
    rewrite <- Fa' in Fa. exact (HN a r0 j m0 Ha Fa Ab Hm).
  - apply append_cases in Ha as Ha'; auto. destruct Ha' as [(r0 & A & _)|(_ & I)]; [apply nth_lt in A; lia|].
    rewrite Forall_forall in HF. apply HF in I as (P & _ & _ & D & _). apply D in Fa as D'. unfold dropped in D'. rewrite Fa in D'.
    cbn [negb andb] in D'.
    assert (Hj : In j (parents h p) /\ j < List.length h).
    { inversion Ab as [i' q' H1 H2|i' q' p0 H1 H2 H3]; subst; rewrite Ha in H1; injection H1 as <-; rewrite P in H2; injection H2 as <-.
      - split; auto. unfold parents. cbn [anc]. now left.
      - pose proof (above_lt _ _ _ HT' H3) as L2. apply UpL in H3; auto. split; [|lia].
        unfold parents. destruct (anc_above h HT (S p) p j (Nat.lt_succ_diag_r p) H3 q Hp) as (p1 & P1 & P2 & P3).
        cbn [anc]. right. rewrite Hp, P1. replace (S p - 1) with p in P3 by lia. exact P3. }
    destruct Hj as [Hj Lj]. apply Dn in Hm as (m0 & Hm & Cm & _); auto. unfold core in Cm. injection Cm as E3 E4 _ _. rewrite <- E3, <- E4.
    destruct (eq_with_var (nd_v m0) (nd_v r) (nd_e m0) (nd_e r)) eqn:E; auto. exfalso.
    assert (X : existsb (fun j0 => match nth_error h j0 with Some q0 => eq_with_var (nd_v q0) (nd_v r) (nd_e q0) (nd_e r) | None => false end) (parents h p) = true).
    { apply existsb_exists. exists j. split; auto. now rewrite Hm. }
    congruence.
Qed.
Lemma NoRep_prim h h' : prim h h' -> Tree h -> NoRep h -> NoRep h'.
Proof.
  intros H HT HN. destruct H.
  - apply NoRep_set; auto.
  - apply NoRep_set; auto. + apply Tree_set; auto. + apply NoRep_set; auto.
  - apply NoRep_set; auto.
  - apply NoRep_set; auto.
  - eapply NoRep_app; eauto.
Qed.
(** Every heap that grows out of a good one is good. *)
Definition Good (h : heap) : Prop := Tree h /\ NoRep h /\ SolSet h.
Theorem Good_grow h h' : grow h h' -> Good h -> Good h'.
Proof.
  induction 1; auto. intros (A & B & C). apply IHgrow. unfold Good. splits.
  - eapply Tree_prim; eauto.
  - eapply NoRep_prim; eauto.
  - eapply SolSet_prim; eauto.
Qed.
Lemma Good_root e v : Good [mkroot e v].
Proof.
  unfold Good. splits; [apply Tree_root| |].
  - intros i q j m Hi _ Ha _. destruct i as [|i]; [|destruct i; discriminate]. apply above_lt in Ha; [lia|apply Tree_root].
  - intros [|i] q H Ty; [|destruct i; discriminate]. injection H as <-. discriminate.
Qed.
