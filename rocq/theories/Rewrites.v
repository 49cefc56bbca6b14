(** * Rewrites: the rewritings of a trigonometric integrand are alternatives (C43).

    For the plain code and the monitored one alike, any heap. *)
From Coquelicot Require Import Coquelicot.
From Verif Require Import Base Expr Kernel Funcs Calc Trans Search SearchSound Shape PropsA PropsC PropsE PropsF PropsG.
Close Scope R_scope.
Open Scope nat_scope.

Lemma guard_ok {A} b (r : res A) a : guard b r = Ok a -> r = Ok a.
Proof. unfold guard. destruct b; [auto|discriminate]. Qed.
Lemma or_solved h i q : nth_error h i = Some q -> nd_ty q = OR -> (Solved h i <-> exists k, In k (nd_kids q) /\ Solved h k).
Proof.
  intros H O. split.
  - intros S0. inversion S0 as [? q' H1 H2|? q' H1 [H2|H2] H3 H4|? q' k H1 H2 H3]; subst; rewrite H in H1; injection H1 as <-; try congruence. eauto.
  - intros (k & Hk & Sk). eapply so_any; eauto.
Qed.
(** RewriteTrig.forward: the node becomes solved as soon as one of its children is (its integrand can be replaced by
    any of the rewritten ones), and each node made is a child of it, with one of the rewritten integrands and the same variable *)
Theorem c43_alternatives fk h i v e h' l : i < List.length h -> is_id IRewTrig (last_tr ex_pae h i) = false ->
  rewrite_trig fk e = Ok (Some l) -> h_rewtrig fk h i v e = Ok h' ->
  exists q, nth_error h' i = Some q /\
    (Solved h' i <-> exists k, In k (nd_kids q) /\ Solved h' k) /\
    (forall j c, List.length h <= j -> nth_error h' j = Some c -> In j (nd_kids q) /\ In (nd_e c) l /\ nd_v c = v /\ nd_p c = Some i).
Proof.
  intros Hi N R H. unfold h_rewtrig in H. rewrite N, R in H. cbn [bind] in H. apply bind_ok in H as (h1 & H & E). injection E as <-.
  assert (K : forall l0 h0 h1, (forall x, In x l0 -> In x l) -> i < List.length h0 ->
    foldM (fun h r => add1 fk h i (mkn r v (TId IRewTrig) i)) l0 h0 = Ok h1 ->
    List.length h <= List.length h0 ->
    (forall q, nth_error h0 i = Some q -> forall j c, List.length h <= j -> nth_error h0 j = Some c -> In j (nd_kids q) /\ In (nd_e c) l /\ nd_v c = v /\ nd_p c = Some i) ->
    i < List.length h1 /\ forall q, nth_error h1 i = Some q -> forall j c, List.length h <= j -> nth_error h1 j = Some c -> In j (nd_kids q) /\ In (nd_e c) l /\ nd_v c = v /\ nd_p c = Some i).
  { clear h1 H. induction l0 as [|r l0 IH]; intros h0 h1 Hl L0 H G P; cbn [foldM] in H.
    - injection H as <-. auto.
    - apply bind_ok in H as (h2 & H2 & H). unfold add1 in H2. apply bind_ok in H2 as (q0 & Hq & H2). apply guard_ok in H2. injection H2 as <-.
      apply get_ok in Hq. revert H. destruct (dropped h0 i _); intros H.
      + apply (IH h0); auto. intros x Hx. apply Hl. now right.
      + assert (LA : List.length (append h0 i [mkn r v (TId IRewTrig) i]) = S (List.length h0)).
        { unfold append. rewrite setn_length, app_length. cbn. lia. }
        apply (IH _ h1) in H; auto; [intros x Hx; apply Hl; now right|lia|lia|].
        intros q Hqi j c Lj Hj. apply append_cases in Hqi; auto. destruct Hqi as [(qi & Hqi & _ & _ & _ & _ & Kq)|(L1 & _)]; [|lia].
        rewrite Nat.eqb_refl in Kq. cbn in Kq. rewrite Kq.
        apply append_cases in Hj as Hj'; auto. destruct Hj' as [(cj & Hcj & C & _ & _ & _ & _)|(L2 & [<-|[]])].
        * destruct (P qi Hqi j cj Lj Hcj) as (A1 & A2 & A3 & A4). unfold core in C. injection C. intros. split; [apply in_app_iff; now left|].
          split; [congruence|]. split; congruence.
        * assert (j < S (List.length h0)) by (rewrite <- LA; apply nth_error_Some; congruence). split; [|split; [apply Hl; now left|now split]].
          apply in_app_iff. right. left. lia. }
  destruct (K l h h1 (fun _ H => H) Hi H (le_n _)) as (L1 & P).
  { intros q _ j c Lj Hj. exfalso. apply nth_error_None in Lj. congruence. }
  destruct (nth_error h1 i) as [q1|] eqn:Q1; [|apply nth_error_None in Q1; lia].
  assert (Q : nth_error (setn h1 i (set_ty OR)) i = Some (set_ty OR q1)) by (rewrite nth_setn, Nat.eqb_refl, Q1; reflexivity).
  exists (set_ty OR q1). split; [exact Q|]. split; [now apply or_solved|].
  intros j c Lj Hj. rewrite nth_setn in Hj. destruct (Nat.eqb_spec i j) as [->|_]; [lia|]. now apply (P q1 eq_refl j c).
Qed.
(** three alternatives for tan(x)^3 / sin(x) as the root *)
Definition ex_rw : expr := EProd [EPow (ETrig Sin (ESym "x")) (ERat (-1)); EPow (ETrig Tan (ESym "x")) (ERat 3)].
Lemma c43_alternatives_ex : exists l h', rewrite_trig gp ex_rw = Ok (Some l) /\ h_rewtrig gp [mkroot ex_rw "x"] 0 "x" ex_rw = Ok h' /\
  List.length l = List.length h' - 1 /\ 3 <= List.length h' /\ is_id IRewTrig (last_tr ex_pae [mkroot ex_rw "x"] 0) = false.
Proof. eexists. eexists. split; [vm_compute; reflexivity|]. split; [vm_compute; reflexivity|]. vm_compute. repeat split; auto. Qed.
