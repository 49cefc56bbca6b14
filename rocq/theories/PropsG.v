(** * PropsG: the search tree of the plain code (C26, C35, C61, C63, C64).

    Reading guide: as PropsF.v.  These theorems hold for the code as it is: no monitor, any [fkern]. *)
From Coquelicot Require Import Coquelicot.
From Verif Require Import Base Expr Kernel Mono Funcs FMono Calc Sem Search SearchMono SearchSound Shape PropsA PropsC PropsE PropsF.
Close Scope R_scope.
Open Scope nat_scope.

(** ** Specification: the status of a node, read off the tree *)
Inductive Solved (h : heap) : nat -> Prop :=
| so_done i q : nth_error h i = Some q -> nd_ty q = SOLUTION -> Solved h i
| so_all i q : nth_error h i = Some q -> nd_ty q = AND \/ nd_ty q = UNSET -> nd_kids q <> [] ->
    (forall k, In k (nd_kids q) -> Solved h k) -> Solved h i
| so_any i q k : nth_error h i = Some q -> nd_ty q = OR -> In k (nd_kids q) -> Solved h k -> Solved h i.
Inductive Failed (h : heap) : nat -> Prop :=
| fa_done i q : nth_error h i = Some q -> nd_ty q = FAILURE -> Failed h i
| fa_all i q : nth_error h i = Some q -> nd_ty q = OR -> nd_kids q <> [] ->
    (forall k, In k (nd_kids q) -> Failed h k) -> Failed h i
| fa_any i q k : nth_error h i = Some q -> nd_ty q <> OR -> In k (nd_kids q) -> Failed h k -> Failed h i.
Definition Finished (h : heap) (i : nat) : Prop := Solved h i \/ Failed h i.
(** [j] is [i] or below it *)
Inductive below (h : heap) : nat -> nat -> Prop :=
| be_refl i q : nth_error h i = Some q -> below h i i
| be_kid i q k j : nth_error h i = Some q -> In k (nd_kids q) -> below h k j -> below h i j.
Definition leaf (h : heap) (j : nat) : Prop := exists q, nth_error h j = Some q /\ nd_kids q = [].
(** a node marked as solved directly (by the table or as a by-parts filler) has no children *)
Definition sol_leaves (h : heap) : Prop := forall i q, nth_error h i = Some q -> nd_ty q = SOLUTION -> nd_kids q = [].

(** ** Helpers *)
Definition dec {A} (r : res bool) (P : A -> Prop) (a : A) : Prop := exists b, r = Ok b /\ (b = true <-> P a).
Lemma allM_spec {A} (f : A -> res bool) (P : A -> Prop) l : (forall a, In a l -> dec (f a) P a) ->
  exists b, allM f l = Ok b /\ (b = true <-> forall a, In a l -> P a).
Proof.
  induction l as [|a l IH]; intros H; cbn [allM].
  - exists true. split; auto. split; auto. intros _ a [].
  - destruct (H a (or_introl eq_refl)) as (b & -> & Hb). cbn. destruct b.
    + destruct IH as (b & -> & E); [intros; apply H; now right|]. exists b. split; auto. rewrite E. split.
      * intros G x [<-|Hx]; auto. now apply Hb.
      * intros G x Hx. apply G. now right.
    + exists false. split; auto. split; [discriminate|]. intros G. apply Hb, G. now left.
Qed.
Lemma anyM_spec {A} (f : A -> res bool) (P : A -> Prop) l : (forall a, In a l -> dec (f a) P a) ->
  exists b, anyM f l = Ok b /\ (b = true <-> exists a, In a l /\ P a).
Proof.
  induction l as [|a l IH]; intros H; cbn [anyM].
  - exists false. split; auto. split; [discriminate|]. now intros (a & [] & _).
  - destruct (H a (or_introl eq_refl)) as (b & -> & Hb). cbn. destruct b.
    + exists true. split; auto. split; auto. intros _. exists a. split; [now left|]. now apply Hb.
    + destruct IH as (b & -> & E); [intros; apply H; now right|]. exists b. split; auto. rewrite E. split.
      * intros (x & Hx & Px). exists x. split; [now right|exact Px].
      * intros (x & [<-|Hx] & Px); [apply Hb in Px; discriminate|]. eauto.
Qed.
Lemma filterM_spec {A} (f : A -> res bool) (P : A -> Prop) l : (forall a, In a l -> dec (f a) P a) ->
  exists r, filterM f l = Ok r /\ forall a, In a r <-> In a l /\ P a.
Proof.
  induction l as [|a l IH]; intros H; cbn [filterM].
  - exists []. split; auto. cbn. tauto.
  - destruct (H a (or_introl eq_refl)) as (b & -> & Hb). cbn. destruct IH as (r & -> & E); [intros; apply H; now right|].
    eexists. split; [reflexivity|]. intros x. destruct b; cbn [In]; rewrite E; [|].
    + split; [intros [<-|[H1 H2]]; split; auto; now apply Hb|]. intros [[<-|Hx] Px]; auto.
    + split; [tauto|]. intros [[<-|Hx] Px]; auto. apply Hb in Px. discriminate.
Qed.
Lemma mapM_spec {A B} (f : A -> res B) (P : A -> B -> Prop) l : (forall a, In a l -> exists b, f a = Ok b /\ P a b) ->
  exists r, mapM f l = Ok r /\ Forall2 P l r.
Proof.
  induction l as [|a l IH]; intros H; cbn [mapM].
  - exists []. auto.
  - destruct (H a (or_introl eq_refl)) as (b & -> & Hb). cbn. destruct IH as (r & -> & E); [intros; apply H; now right|].
    eexists. split; [reflexivity|]. constructor; auto.
Qed.
Lemma get_some h i q : nth_error h i = Some q -> get h i = Ok q.
Proof. intros H. unfold get. now rewrite H. Qed.
Lemma kid_facts h i q k : Tree h -> nth_error h i = Some q -> In k (nd_kids q) ->
  i < k < List.length h /\ exists q', nth_error h k = Some q' /\ nd_p q' = Some i.
Proof.
  intros T Hq Hk. destruct (T _ _ Hq) as (K & _). destruct (K _ Hk) as (L & q' & Hq' & P).
  split; [|eauto]. split; auto. apply nth_error_Some. congruence.
Qed.
Lemma node_at (h : heap) i : i < List.length h -> exists q, nth_error h i = Some q.
Proof. intros H. destruct (nth_error h i) eqn:E; eauto. apply nth_error_None in E. lia. Qed.
Lemma at_lt (h : heap) i q : nth_error h i = Some q -> i < List.length h.
Proof. intros H. apply nth_error_Some. congruence. Qed.

(** ** C35: status *)
Section Status.
Context (h : heap) (T : Tree h).

Lemma solved_go_spec f : forall i, i < List.length h -> List.length h - i <= f -> dec (solved_go f h i) (Solved h) i.
Proof.
  induction f as [|f IH]; intros i Hi Hf; [lia|]. cbn [solved_go]. destruct (node_at h i Hi) as [q Hq]. rewrite (get_some _ _ _ Hq). cbn.
  assert (K : forall k, In k (nd_kids q) -> dec (solved_go f h k) (Solved h) k).
  { intros k Hk. destruct (kid_facts h i q k T Hq Hk) as [L _]. apply IH; lia. }
  destruct (nd_ty q) eqn:Ty.
  3: { (* UNSET *) destruct (nd_kids q) as [|k0 ks] eqn:EK; cbn [isnil].
       - exists false. split; auto. split; [discriminate|]. intros H. inversion H as [? q' H1 H2|? q' H1 H2 H3|? q' k H1 H2 H3]; subst; rewrite Hq in H1; injection H1 as <-; try congruence.
       - destruct (allM_spec _ _ _ K) as (b & -> & E). exists b. split; auto. rewrite E. split.
         + intros G. eapply so_all; [exact Hq|auto|congruence|]. now rewrite EK.
         + intros H. inversion H as [? q' H1 H2|? q' H1 H2 H3 H4|? q' k H1 H2 H3]; subst; rewrite Hq in H1; injection H1 as <-; try congruence.
           now rewrite <- EK. }
  1: { destruct (nd_kids q) as [|k0 ks] eqn:EK; cbn [isnil].
       - exists false. split; auto. split; [discriminate|]. intros H. inversion H as [? q' H1 H2|? q' H1 H2 H3|? q' k H1 H2 H3]; subst; rewrite Hq in H1; injection H1 as <-; try congruence.
       - destruct (allM_spec _ _ _ K) as (b & -> & E). exists b. split; auto. rewrite E. split.
         + intros G. eapply so_all; [exact Hq|auto|congruence|]. now rewrite EK.
         + intros H. inversion H as [? q' H1 H2|? q' H1 H2 H3 H4|? q' k H1 H2 H3]; subst; rewrite Hq in H1; injection H1 as <-; try congruence.
           now rewrite <- EK. }
  1: { destruct (nd_kids q) as [|k0 ks] eqn:EK; cbn [isnil].
       - exists false. split; auto. split; [discriminate|]. intros H. inversion H as [? q' H1 H2|? q' H1 H2 H3|? q' k H1 H2 H3]; subst; rewrite Hq in H1; injection H1 as <-; try congruence.
         rewrite EK in H3. destruct H3.
       - destruct (anyM_spec _ _ _ K) as (b & -> & E). exists b. split; auto. rewrite E. split.
         + intros (k & Hk & Sk). eapply so_any; eauto. now rewrite EK.
         + intros H. inversion H as [? q' H1 H2|? q' H1 [H2|H2] H3 H4|? q' k H1 H2 H3]; subst; rewrite Hq in H1; injection H1 as <-; try congruence.
           exists k. now rewrite <- EK. }
  1: { exists true. split; auto. split; auto. intros _. eapply so_done; eauto. }
  exists false. split; [now destruct (isnil _)|]. split; [discriminate|]. intros H.
  inversion H as [? q' H1 H2|? q' H1 [H2|H2] H3 H4|? q' k H1 H2 H3]; subst; rewrite Hq in H1; injection H1 as <-; congruence.
Qed.
Lemma failed_go_spec f : forall i, i < List.length h -> List.length h - i <= f -> dec (failed_go f h i) (Failed h) i.
Proof.
  induction f as [|f IH]; intros i Hi Hf; [lia|]. cbn [failed_go]. destruct (node_at h i Hi) as [q Hq]. rewrite (get_some _ _ _ Hq). cbn.
  assert (K : forall k, In k (nd_kids q) -> dec (failed_go f h k) (Failed h) k).
  { intros k Hk. destruct (kid_facts h i q k T Hq Hk) as [L _]. apply IH; lia. }
  assert (N : nd_kids q = [] -> nd_ty q <> FAILURE -> ~ Failed h i).
  { intros E Ty H. inversion H as [? q' H1 H2|? q' H1 H2 H3|? q' k H1 H2 H3]; subst; rewrite Hq in H1; injection H1 as <-; try congruence.
    rewrite E in H3. destruct H3. }
  assert (A : nd_ty q <> FAILURE -> nd_ty q <> OR -> exists b, anyM (failed_go f h) (nd_kids q) = Ok b /\ (b = true <-> Failed h i)).
  { intros N1 N2. destruct (anyM_spec _ _ _ K) as (b & -> & E). exists b. split; auto. rewrite E. split.
    - intros (k & Hk & Sk). eapply fa_any; eauto.
    - intros H. inversion H as [? q' H1 H2|? q' H1 H2 H3 H4|? q' k H1 H2 H3]; subst; rewrite Hq in H1; injection H1 as <-; try congruence. eauto. }
  destruct (nd_ty q) eqn:Ty.
  5: { exists true. split; auto. split; auto. intros _. eapply fa_done; eauto. }
  all: destruct (isnil (nd_kids q)) eqn:EK;
    [exists false; split; auto; split; [discriminate|]; intros H; exfalso; revert H; apply N; [destruct (nd_kids q); [auto|discriminate]|discriminate]|].
  1,3,4: apply A; discriminate.
  destruct (allM_spec _ _ _ K) as (b & -> & E). exists b. split; auto. rewrite E. split.
  - intros G. eapply fa_all; eauto. intros E'. rewrite E' in EK. discriminate.
  - intros H. inversion H as [? q' H1 H2|? q' H1 H2 H3 H4|? q' k H1 H2 H3]; subst; rewrite Hq in H1; injection H1 as <-; try congruence; auto.
Qed.
(** is_solved and is_failed of every node of the tree are defined and mean what the specification says *)
Theorem c35_solved i : i < List.length h -> exists b, solved h i = Ok b /\ (b = true <-> Solved h i).
Proof. intros H. apply solved_go_spec; auto. lia. Qed.
Theorem c35_failed i : i < List.length h -> exists b, failed h i = Ok b /\ (b = true <-> Failed h i).
Proof. intros H. apply failed_go_spec; auto. lia. Qed.
Lemma finished_spec i : i < List.length h -> dec (finished h i) (Finished h) i.
Proof.
  intros H. unfold finished. destruct (c35_solved i H) as (b & -> & E1). destruct (c35_failed i H) as (b' & -> & E2). cbn.
  unfold Finished. destruct b.
  - exists true. split; auto. tauto.
  - exists b'. split; auto. rewrite E2. split; auto. intros [X|X]; auto. apply E1 in X. discriminate.
Qed.
Lemma unfinished_dec i : i < List.length h -> Finished h i \/ ~ Finished h i.
Proof. intros H. destruct (finished_spec i H) as ([] & _ & E); [left; now apply E|right; intros X; apply E in X; discriminate]. Qed.

(** never both *)
Theorem c35_exclusive i : sol_leaves h -> Solved h i -> Failed h i -> False.
Proof.
  intros SL H. induction H as [i q Hq Ty|i q Hq Ty NK K IH|i q k Hq Ty Hk Sk IH]; intros Fi;
    inversion Fi as [? q' H1 H2|? q' H1 H2 H3 H4|? q' k' H1 H2 H3 H4]; subst; rewrite Hq in H1; injection H1 as <-; try congruence.
  - rewrite (SL _ _ Hq Ty) in H3. destruct H3.
  - destruct Ty; congruence.
  - destruct Ty; congruence.
  - eauto.
  - apply IH, H4. auto.
Qed.

(** an unfinished node with children has an unfinished child *)
Lemma unfinished_kid i q : nth_error h i = Some q -> ~ Finished h i -> nd_kids q <> [] -> exists k, In k (nd_kids q) /\ ~ Finished h k.
Proof.
  intros Hq NF NK.
  assert (D : (forall k, In k (nd_kids q) -> Finished h k) \/ exists k, In k (nd_kids q) /\ ~ Finished h k).
  { assert (G : forall l, (forall k, In k l -> In k (nd_kids q)) -> (forall k, In k l -> Finished h k) \/ exists k, In k l /\ ~ Finished h k).
    { induction l as [|a l IH]; intros Hl; [left; intros k []|]. destruct IH as [A|(k & Hk & N)]; [intros; apply Hl; now right| |right; exists k; split; auto; now right].
      destruct (unfinished_dec a) as [F|N]; [destruct (kid_facts h i q a T Hq); [apply Hl; now left|lia]| |right; exists a; split; auto; now left].
      left. intros k [<-|Hk]; auto. }
    apply G; auto. }
  destruct D as [A|D]; auto. exfalso. apply NF.
  assert (E : (forall k, In k (nd_kids q) -> Solved h k) \/ exists k, In k (nd_kids q) /\ Failed h k).
  { clear NK. revert A. induction (nd_kids q) as [|a l IH]; intros A; [left; intros k []|].
    destruct IH as [B|(k & Hk & Fk)]; [intros; apply A; now right| |right; exists k; split; auto; now right].
    destruct (A a (or_introl eq_refl)) as [Sa|Fa]; [left; intros k [<-|Hk]; auto|right; exists a; split; auto; now left]. }
  assert (E' : (forall k, In k (nd_kids q) -> Failed h k) \/ exists k, In k (nd_kids q) /\ Solved h k).
  { clear NK E. revert A. induction (nd_kids q) as [|a l IH]; intros A; [left; intros k []|].
    destruct IH as [B|(k & Hk & Fk)]; [intros; apply A; now right| |right; exists k; split; auto; now right].
    destruct (A a (or_introl eq_refl)) as [Sa|Fa]; [right; exists a; split; auto; now left|left; intros k [<-|Hk]; auto]. }
  destruct (nd_ty q) eqn:Ty.
  - destruct E as [E|(k & Hk & Fk)]; [left; eapply so_all; eauto|right; eapply fa_any; eauto; congruence].
  - destruct E' as [E'|(k & Hk & Sk)]; [right; eapply fa_all; eauto|left; eapply so_any; eauto].
  - destruct E as [E|(k & Hk & Fk)]; [left; eapply so_all; eauto|right; eapply fa_any; eauto; congruence].
  - left. eapply so_done; eauto.
  - right. eapply fa_done; eauto.
Qed.

(** ** C35: leaves *)
Lemma leaves_go_spec f : forall i, i < List.length h -> List.length h - i <= f ->
  exists l, leaves_go f h i = Ok l /\ forall j, In j l <-> below h i j /\ leaf h j.
Proof.
  induction f as [|f IH]; intros i Hi Hf; [lia|]. cbn [leaves_go]. destruct (node_at h i Hi) as [q Hq]. rewrite (get_some _ _ _ Hq). cbn [bind].
  destruct (nd_kids q) as [|k0 ks] eqn:EK.
  - exists [i]. split; auto. intros j. cbn [In]. split.
    + intros [<-|[]]. split; [eapply be_refl; eauto|exists q; auto].
    + intros [Bj _]. left. inversion Bj as [? q' H1|? q' k ? H1 H2 H3]; subst; auto. rewrite Hq in H1. injection H1 as <-. rewrite EK in H2. destruct H2.
  - rewrite <- EK.
    destruct (mapM_spec (leaves_go f h) (fun k l => forall j, In j l <-> below h k j /\ leaf h j) (nd_kids q)) as (r & -> & E).
    { intros k Hk. destruct (kid_facts h i q k T Hq Hk) as [L _]. apply IH; lia. }
    cbn. eexists. split; [reflexivity|]. intros j. rewrite in_concat. split.
    + intros (l & Hl & Hj).
      assert (X : exists k, In k (nd_kids q) /\ forall j, In j l <-> below h k j /\ leaf h j).
      { clear -E Hl. induction E as [|k l' ks r P E IH]; [destruct Hl|]. destruct Hl as [<-|Hl]; [exists k; split; [now left|exact P]|].
        destruct (IH Hl) as (k' & H1 & H2). exists k'. split; [now right|exact H2]. }
      destruct X as (k & Hk & Pk). destruct (proj1 (Pk j) Hj) as [Bj Lj]. split; auto. eapply be_kid; eauto.
    + intros [Bj Lj]. inversion Bj as [? q' H1|? q' k ? H1 H2 H3]; subst.
      * exfalso. destruct Lj as (q2 & Hq2 & NK). rewrite Hq in Hq2. injection Hq2 as <-. congruence.
      * rewrite Hq in H1. injection H1 as <-.
        assert (X : exists l, In l r /\ forall j, In j l <-> below h k j /\ leaf h j).
        { clear -E H2. induction E as [|k' l' ks r P E IH]; [destruct H2|]. destruct H2 as [<-|H2]; [exists l'; split; [now left|exact P]|].
          destruct (IH H2) as (l & X1 & X2). exists l. split; [now right|exact X2]. }
        destruct X as (l & X1 & X2). exists l. split; auto. now apply X2.
Qed.
Theorem c35_leaves i : i < List.length h -> exists l, leaves h i = Ok l /\ forall j, In j l <-> below h i j /\ leaf h j.
Proof. intros H. apply leaves_go_spec; auto. lia. Qed.
Lemma below_lt i j : below h i j -> j < List.length h.
Proof. induction 1; auto. eapply at_lt; eauto. Qed.
Lemma unf_dec i : i < List.length h -> dec (b <- finished h i;; Ok (negb b)) (fun j => ~ Finished h j) i.
Proof.
  intros H. destruct (finished_spec i H) as (b & -> & E). cbn. exists (negb b). split; auto. rewrite negb_true_iff. split.
  - intros -> X. apply E in X. discriminate.
  - intros X. destruct b; auto. exfalso. apply X. now apply E.
Qed.
(** unfinished_leaves lists exactly the unfinished leaves *)
Theorem c35_unfinished_leaves i : i < List.length h ->
  exists l, unfinished_leaves h i = Ok l /\ forall j, In j l <-> below h i j /\ leaf h j /\ ~ Finished h j.
Proof.
  intros H. unfold unfinished_leaves. destruct (c35_leaves i H) as (l & -> & E). cbn.
  destruct (filterM_spec (fun j => b <- finished h j;; Ok (negb b)) (fun j => ~ Finished h j) l) as (r & -> & E').
  { intros j Hj. apply unf_dec. apply E in Hj as [Bj _]. eapply below_lt; eauto. }
  exists r. split; auto. intros j. rewrite E', E. tauto.
Qed.
(** below an unfinished node there is an unfinished leaf: when none is left, the node is finished *)
Lemma unf_leaf i : i < List.length h -> ~ Finished h i -> exists j, below h i j /\ leaf h j /\ ~ Finished h j.
Proof.
  remember (List.length h - i) as d eqn:Ed. revert i Ed. induction d as [d IH] using lt_wf_ind. intros i Ed Hi NF.
  destruct (node_at h i Hi) as [q Hq]. destruct (nd_kids q) as [|k0 ks] eqn:EK.
  - exists i. split; [eapply be_refl; eauto|]. split; auto. exists q; auto.
  - destruct (unfinished_kid i q Hq NF) as (k & Hk & Nk); [congruence|]. destruct (kid_facts h i q k T Hq Hk) as [L _].
    destruct (IH (List.length h - k)) with (i := k) as (j & A & B & C); auto; try lia. exists j. split; auto. eapply be_kid; eauto.
Qed.
Theorem c35_all_done i : i < List.length h -> unfinished_leaves h i = Ok [] -> finished h i = Ok true.
Proof.
  intros Hi H. destruct (c35_unfinished_leaves i Hi) as (l & Hl & E). rewrite H in Hl. injection Hl as <-.
  destruct (finished_spec i Hi) as (b & -> & Eb). f_equal. apply Eb. destruct (unfinished_dec i Hi) as [F|N]; auto.
  destruct (unf_leaf i Hi N) as (j & A & B & C). exfalso. apply (E j). auto.
Qed.

(** ** C63: the next node *)
Lemma unfinished_kids_spec i q : nth_error h i = Some q ->
  exists l, unfinished_kids h i = Ok l /\ forall k, In k l <-> In k (nd_kids q) /\ ~ Finished h k.
Proof.
  intros Hq. unfold unfinished_kids. rewrite (get_some _ _ _ Hq). cbn. apply filterM_spec.
  intros k Hk. apply unf_dec. destruct (kid_facts h i q k T Hq Hk). lia.
Qed.
Definition nest (j : nat) : nat := match nth_error h j with Some q => nesting (Some (nd_v q)) (nd_e q) | None => 0 end.
Lemma best_go_spec (mn : bool) l : forall b, In (best_go (fun x y => if mn then Nat.ltb x y else Nat.ltb y x) l b) (map fst (b :: l)) /\
  ((forall a, In a (b :: l) -> snd a = nest (fst a)) ->
   forall a, In a (b :: l) -> let w := nest (best_go (fun x y => if mn then Nat.ltb x y else Nat.ltb y x) l b) in if mn then w <= snd a else snd a <= w).
Proof.
  induction l as [|a l IH]; intros b; cbn [best_go].
  - split; [now left|]. intros Hn a [<-|[]]. cbv zeta. rewrite Hn by now left. destruct mn; lia.
  - set (b' := if (if mn then Nat.ltb (snd a) (snd b) else Nat.ltb (snd b) (snd a)) then a else b).
    destruct (IH b') as [H1 H2]. split.
    + cbn [map In] in H1 |- *. destruct H1 as [H1|H1]; [|auto]. subst b'. destruct (if mn then _ else _); auto.
    + intros Hn. assert (Hn' : forall a, In a (b' :: l) -> snd a = nest (fst a)).
      { intros x [<-|Hx]; [|apply Hn; right; now right]. subst b'. destruct (if mn then _ else _); apply Hn; cbn; auto. }
      specialize (H2 Hn'). cbv zeta in *.
      assert (Hb : let w := nest (best_go (fun x y => if mn then Nat.ltb x y else Nat.ltb y x) l b') in if mn then w <= snd b' else snd b' <= w).
      { apply H2. now left. }
      cbv zeta in Hb. assert (C : (if mn then snd b' <= snd a /\ snd b' <= snd b else snd a <= snd b' /\ snd b <= snd b')).
      { subst b'. destruct mn; [destruct (Nat.ltb_spec (snd a) (snd b))|destruct (Nat.ltb_spec (snd b) (snd a))]; lia. }
      intros x [<-|[<-|Hx]]; [..|apply H2; now right]; destruct mn; lia.
Qed.
(** The integrand of node [j] is not a bare infinity. *)
Definition finite_at (j : nat) : Prop :=
  match nth_error h j with Some q => nd_e q <> EInf /\ nd_e q <> ENegInf | None => True end.
Lemma finite_at_dec j : {finite_at j} + {~ finite_at j}.
Proof. unfold finite_at. destruct (nth_error h j) as [q|]; [|left; exact I]. destruct (nd_e q); (left; split; discriminate) || (right; intuition congruence). Qed.
Lemma nestingc_fin v e : e <> EInf /\ e <> ENegInf -> nestingc v e = Ok (nesting v e).
Proof. destruct e; intros [A B]; try reflexivity; congruence. Qed.
(** _get_node_with_best_nesting returns a node of the list with the least (or the greatest) nesting; it raises TypeError
    when a node of the list has a bare infinity as integrand *)
Theorem c63_best_nesting mn l : l <> [] -> (forall j, In j l -> j < List.length h) -> (forall j, In j l -> finite_at j) ->
  exists j, best_nesting mn h l = Ok j /\ In j l /\ forall k, In k l -> if mn then nest j <= nest k else nest k <= nest j.
Proof.
  intros NE Hl Fl. unfold best_nesting.
  destruct (mapM_spec (fun i => q <- get h i;; k <- nestingc (Some (nd_v q)) (nd_e q);; Ok (i, k)) (fun i p => p = (i, nest i)) l) as (r & -> & E).
  { intros i Hi. destruct (node_at h i (Hl i Hi)) as [q Hq]. rewrite (get_some _ _ _ Hq). cbn [bind].
    specialize (Fl i Hi). unfold finite_at in Fl. rewrite Hq in Fl. rewrite nestingc_fin by exact Fl. cbn. eexists. split; [reflexivity|]. unfold nest. now rewrite Hq. }
  cbn. assert (Er : r = map (fun i => (i, nest i)) l) by (clear -E; induction E; cbn; congruence).
  destruct l as [|i l]; [congruence|]. subst r. cbn [map]. eexists. split; [reflexivity|].
  destruct (best_go_spec mn (map (fun i => (i, nest i)) l) (i, nest i)) as [H1 H2].
  set (j := best_go _ _ _) in *. split.
  - cbn [map fst] in H1. rewrite map_map in H1. cbn [fst] in H1. now rewrite map_id in H1.
  - intros k Hk. specialize (H2 ltac:(intros a [<-|Ha]; [reflexivity|apply in_map_iff in Ha as (x & <- & _); reflexivity])).
    apply (H2 (k, nest k)). destruct Hk as [<-|Hk]; [now left|right; apply in_map_iff; eauto].
Qed.
Lemma mapM_or {A B} (f : A -> res B) (P : A -> B -> Prop) x (Q : Prop) l :
  (forall a, In a l -> (exists b, f a = Ok b /\ P a b) \/ f a = Raise x /\ Q) ->
  (exists r, mapM f l = Ok r /\ Forall2 P l r) \/ mapM f l = Raise x /\ Q.
Proof.
  induction l as [|a l IH]; intros H; cbn [mapM].
  - left. exists []. auto.
  - destruct (H a (or_introl eq_refl)) as [(b & -> & Hb)|[-> HQ]]; [|right; auto]. cbn.
    destruct IH as [(r & -> & E)|[-> HQ]]; [intros; apply H; now right| |right; auto].
    left. eexists. split; [reflexivity|]. constructor; auto.
Qed.
Theorem c63_best_nesting_infinite mn l j : (forall j, In j l -> j < List.length h) -> In j l -> ~ finite_at j ->
  best_nesting mn h l = Raise TypeError.
Proof.
  intros Hl Hj NF. unfold best_nesting.
  destruct (mapM_or (fun i => q <- get h i;; k <- nestingc (Some (nd_v q)) (nd_e q);; Ok (i, k)) (fun i _ => finite_at i) TypeError True l)
    as [(r & _ & E)|[-> _]]; [| |reflexivity].
  - intros i Hi. destruct (node_at h i (Hl i Hi)) as [q Hq]. rewrite (get_some _ _ _ Hq). cbn [bind]. unfold finite_at. rewrite Hq.
    destruct (nd_e q); cbn; auto; left; eexists; (split; [reflexivity|]); split; discriminate.
  - exfalso. apply NF. clear -E Hj. induction E as [|a b l r P E IH]; [destruct Hj|]. destruct Hj as [<-|Hj]; auto.
Qed.
Lemma best_nesting_or mn l : l <> [] -> (forall j, In j l -> j < List.length h) ->
  (exists j, best_nesting mn h l = Ok j /\ In j l) \/ (best_nesting mn h l = Raise TypeError /\ exists j, In j l /\ ~ finite_at j).
Proof.
  intros NE Hl. assert (D : (forall j, In j l -> finite_at j) \/ exists j, In j l /\ ~ finite_at j).
  { clear. induction l as [|a l IH]; [left; intros _ []|]. destruct (finite_at_dec a) as [Fa|Na]; [|right; exists a; split; auto; now left].
    destruct IH as [IH|(j & Hj & N)]; [left; intros j [<-|Hj]; auto|right; exists j; split; auto; now right]. }
  destruct D as [D|(j & Hj & N)].
  - left. destruct (c63_best_nesting mn l NE Hl D) as (j & H1 & H2 & _). eauto.
  - right. split; [eapply c63_best_nesting_infinite; eauto|eauto].
Qed.
(** an unfinished leaf under [i] whose integrand is a bare infinity *)
Definition infinite_leaf (i : nat) : Prop := exists j, below h i j /\ leaf h j /\ ~ Finished h j /\ ~ finite_at j.
Lemma best_leaf_spec f : forall i, i < List.length h -> List.length h - i <= f -> ~ Finished h i ->
  (exists j, best_leaf f h i = Ok j /\ below h i j /\ leaf h j /\ ~ Finished h j) \/
  best_leaf f h i = Raise TypeError /\ infinite_leaf i.
Proof.
  induction f as [|f IH]; intros i Hi Hf NF; [lia|]. cbn [best_leaf]. destruct (node_at h i Hi) as [q Hq].
  destruct (unfinished_kids_spec i q Hq) as (uc & -> & E). cbn.
  assert (K : forall k, In k uc -> i < k < List.length h /\ ~ Finished h k /\ In k (nd_kids q)).
  { intros k Hk. apply E in Hk as [A B]. destruct (kid_facts h i q k T Hq A). auto. }
  assert (R : forall k, In k uc -> (exists j, best_leaf f h k = Ok j /\ below h i j /\ leaf h j /\ ~ Finished h j) \/
    best_leaf f h k = Raise TypeError /\ infinite_leaf i).
  { intros k Hk. destruct (K k Hk) as (A & B & C). destruct (IH k) as [(j & H1 & H2 & H3 & H4)|(H1 & j & H2 & H3)]; auto; try lia.
    - left. exists j. split; auto. split; auto. eapply be_kid; eauto.
    - right. split; auto. exists j. split; auto. eapply be_kid; eauto. }
  destruct uc as [|c [|c' uc]].
  - left. exists i. split; auto. split; [eapply be_refl; eauto|]. split; auto. exists q. split; auto.
    destruct (nd_kids q) as [|k0 ks] eqn:EK; auto. exfalso. destruct (unfinished_kid i q Hq NF) as (k & Hk & Nk); [congruence|].
    apply (E k). rewrite <- EK. auto.
  - apply R. now left.
  - set (l := c :: c' :: uc) in *.
    destruct (allM_spec (fun c => l <- unfinished_kids h c;; Ok (isnil l)) (fun k => leaf h k) l) as (b & -> & Eb).
    { intros k Hk. destruct (K k Hk) as (A & B & C). destruct (node_at h k) as [qk Hqk]; [lia|].
      destruct (unfinished_kids_spec k qk Hqk) as (u & -> & Eu). cbn. exists (isnil u). split; auto. split.
      - intros N. exists qk. split; auto. destruct (nd_kids qk) as [|k0 ks] eqn:EK; auto. exfalso.
        destruct (unfinished_kid k qk Hqk B) as (k' & Hk' & Nk'); [congruence|]. destruct u; [|discriminate]. apply (Eu k'). rewrite <- EK. auto.
      - intros (q' & Hq' & N). rewrite Hqk in Hq'. injection Hq' as <-. destruct u as [|a u]; auto. exfalso.
        destruct (proj1 (Eu a) (or_introl eq_refl)) as [X _]. now rewrite N in X. }
    cbn [bind]. rewrite (get_some _ _ _ Hq). cbn [bind]. destruct b.
    + assert (BK : forall j, In j l -> below h i j /\ leaf h j /\ ~ Finished h j).
      { intros j H2. destruct (K j H2) as (A & B & C). split.
        - eapply be_kid; eauto. destruct (node_at h j) as [qj Hqj]; [lia|]. eapply be_refl; eauto.
        - split; auto. now apply Eb. }
      destruct (best_nesting_or (match nd_ty q with OR => true | _ => false end) l) as [(j & H1 & H2)|(H1 & j & H2 & H3)].
      { discriminate. } { intros k Hk. apply K in Hk. lia. }
      * left. exists j. split; [exact H1|]. now apply BK.
      * right. split; [exact H1|]. exists j. destruct (BK j H2) as (A & B & C). auto.
    + destruct (mapM_or (best_leaf f h) (fun _ j => below h i j /\ leaf h j /\ ~ Finished h j) TypeError (infinite_leaf i) l R)
        as [(r & -> & Er)|[-> HQ]]; [|right; auto]. cbn [bind].
      assert (Pr : forall j, In j r -> below h i j /\ leaf h j /\ ~ Finished h j).
      { clear -Er. induction Er as [|a0 b0 l0 r0 P0 E0 IH0]; intros j Hj; [destruct Hj|]. destruct Hj as [<-|Hj]; auto. }
      destruct (best_nesting_or (match nd_ty q with OR => true | _ => false end) r) as [(j & H1 & H2)|(H1 & j & H2 & H3)].
      { intros ->. inversion Er. } { intros k Hk. apply Pr in Hk as [Bk _]. eapply below_lt; eauto. }
      * left. exists j. split; [exact H1|]. now apply Pr.
      * right. split; [exact H1|]. exists j. destruct (Pr j H2) as (A & B & C). auto.
Qed.
(** breadth first: as long as the root is unfinished a next node exists, and it is an unfinished leaf - or some
    unfinished leaf has a bare infinity as integrand, and then the choice may raise TypeError *)
Theorem c63_breadth_first : 0 < List.length h -> finished h 0 = Ok false ->
  (exists j, next_bf h = Ok j /\ below h 0 j /\ leaf h j /\ finished h j = Ok false) \/
  next_bf h = Raise TypeError /\ infinite_leaf 0.
Proof.
  intros H0 F. assert (NF : ~ Finished h 0).
  { intros X. destruct (finished_spec 0 H0) as (b & Eb & X'). rewrite F in Eb. injection Eb as <-. apply X' in X. discriminate. }
  assert (G : (exists j, next_bf h = Ok j /\ below h 0 j /\ leaf h j /\ ~ Finished h j) \/ next_bf h = Raise TypeError /\ infinite_leaf 0).
  { unfold next_bf. destruct (c35_unfinished_leaves 0 H0) as (l & -> & E). cbn.
    assert (B : (exists j, best_leaf (S (List.length h)) h 0 = Ok j /\ below h 0 j /\ leaf h j /\ ~ Finished h j) \/
      best_leaf (S (List.length h)) h 0 = Raise TypeError /\ infinite_leaf 0) by (apply best_leaf_spec; auto; lia).
    destruct l as [|j [|j' l]]; auto. left. exists j. split; auto. apply E. now left. }
  destruct G as [(j & H1 & H2 & H3 & H4)|G]; [|now right]. left. exists j. split; auto. split; auto. split; auto.
  destruct (finished_spec j (below_lt 0 j H2)) as (b & -> & Eb). destruct b; auto. exfalso. apply H4. now apply Eb.
Qed.

(** ** C64: depth first *)
Lemma up_or_none f : forall p, Failed h p \/ (exists i qi, nth_error h i = Some qi /\ nd_p qi = Some p /\ Failed h i) ->
  up_or f h p = Ok None -> Failed h 0.
Proof.
  induction f as [|f IH]; intros p HF H; [discriminate|]. cbn [up_or] in H.
  destruct (nth_error h p) as [q|] eqn:Hq; [|unfold get in H; rewrite Hq in H; discriminate].
  rewrite (get_some _ _ _ Hq) in H. cbn in H.
  destruct (Nat.eqb_spec (List.length (nd_kids q)) 1) as [L1|L1]; cbn [orb] in H;
    [|destruct (nd_ty q) eqn:Ty; cbn in H; try discriminate].
  all: assert (FP : Failed h p).
  1,3: destruct HF as [HF|(i & qi & Hi & Pi & HF)]; auto; destruct (T _ _ Hi) as (_ & _ & X); rewrite Pi in X; destruct X as (_ & mm & Hm & Im);
       rewrite Hq in Hm; injection Hm as <-.
  - destruct (nd_kids q) as [|a [|b l]] eqn:EK; try discriminate. destruct Im as [<-|[]].
    destruct (nd_ty q) eqn:Ty.
    + eapply fa_any; eauto; [congruence|rewrite EK; now left].
    + eapply fa_all; eauto; [congruence|]. rewrite EK. now intros k [<-|[]].
    + eapply fa_any; eauto; [congruence|rewrite EK; now left].
    + eapply fa_any; eauto; [congruence|rewrite EK; now left].
    + eapply fa_done; eauto.
  - eapply fa_any; eauto. congruence.
  - destruct (nd_p q) as [p'|] eqn:Pq; [apply (IH p'); eauto; right; eauto|]. destruct (T _ _ Hq) as (_ & _ & X). rewrite Pq in X. now subst.
  - destruct (nd_p q) as [p'|] eqn:Pq; [apply (IH p'); eauto; right; eauto|]. destruct (T _ _ Hq) as (_ & _ & X). rewrite Pq in X. now subst.
Qed.
Lemma up_or_in f : forall p j, up_or f h p = Ok (Some j) -> j < List.length h.
Proof.
  induction f as [|f IH]; intros p j H; [discriminate|]. cbn [up_or] in H. apply bind_ok in H as (q & Hq & H). apply get_ok in Hq.
  destruct (_ || _); [destruct (nd_p q); [eauto|discriminate]|]. injection H as <-. eapply at_lt; eauto.
Qed.
(** _get_next_node_post_heuristic_depth_first: "no next node" is only returned when the root has failed; "solved" only when
    a node is solved; and a node that is returned is an unfinished leaf, unless the root is finished *)
Theorem c64_depth_first k : forall i r, i < List.length h -> next_df k h i = Ok r ->
  match r with
  | NNone => failed h 0 = Ok true
  | NSolved => exists j, solved h j = Ok true
  | NNode j => finished h 0 = Ok true \/ leaf h j /\ finished h j = Ok false
  end.
Proof.
  induction k as [|k IH]; intros i r Hi H; [discriminate|]. cbn [next_df] in H.
  destruct (c35_unfinished_leaves i Hi) as (ul & Hu & E). rewrite Hu in H. cbn [bind] in H.
  assert (FL : forall j, j < List.length h -> ~ Finished h j -> finished h j = Ok false).
  { intros j Hj N. destruct (finished_spec j Hj) as (b & -> & Eb). destruct b; auto. exfalso. now apply N, Eb. }
  destruct ul as [|a ul].
  - destruct (c35_failed i Hi) as (b & Hb & Eb). rewrite Hb in H. cbn [bind] in H. destruct b.
    + destruct (node_at h i Hi) as [q Hq]. rewrite (get_some _ _ _ Hq) in H. cbn [bind] in H.
      assert (Fi : Failed h i) by now apply Eb.
      assert (Z : Failed h 0 -> failed h 0 = Ok true).
      { intros F0. assert (H0 : 0 < List.length h) by lia. destruct (c35_failed 0 H0) as (b & -> & X). f_equal. now apply X. }
      destruct (nd_p q) as [p|] eqn:Pq.
      * apply bind_ok in H as (o & Ho & H). destruct o as [j|].
        -- eapply IH; [eapply up_or_in; exact Ho|exact H].
        -- injection H as <-. apply Z. eapply up_or_none; [|exact Ho]. right. eauto.
      * injection H as <-. apply Z. destruct (T _ _ Hq) as (_ & _ & X). rewrite Pq in X. now subst.
    + injection H as <-. exists i. pose proof (c35_all_done i Hi Hu) as F. unfold finished in F.
      destruct (c35_solved i Hi) as (b & Hs & _). rewrite Hs in F |- *. cbn [bind] in F. destruct b; auto. congruence.
  - assert (UA : forall j, In j (a :: ul) -> j < List.length h /\ leaf h j /\ ~ Finished h j).
    { intros j Hj. apply E in Hj as (A & B & C). split; auto. eapply below_lt; eauto. }
    apply bind_ok in H as (a0 & Ha & H).
    assert (I0 : In a0 (a :: ul)).
    { destruct ul as [|a' ul]; [injection Ha as <-; now left|].
      destruct (best_nesting_or true (a :: a' :: ul)) as [(j & H1 & H2)|(H1 & _)]; [discriminate|intros; now apply UA| |];
        rewrite H1 in Ha; [now injection Ha as <-|discriminate]. }
    apply bind_ok in H as (b & _ & H). destruct b.
    + apply bind_ok in H as (j & Hj & H). injection H as <-.
      assert (H0 : 0 < List.length h) by lia.
      destruct (finished_spec 0 H0) as ([] & F0 & X); [now left|]. right.
      destruct (c63_breadth_first H0 F0) as [(j' & H1 & H2 & H3 & H4)|[H1 _]]; rewrite H1 in Hj; [injection Hj as <-; auto|discriminate].
    + injection H as <-. right. destruct (UA a0 I0) as (A & B & C). auto.
Qed.
End Status.

(** ** C61: every heap the search builds is a tree without repeated integrands *)
(** parent pointers and child lists agree, children come after their parents; no node but a by-parts filler has the
    integrand (up to the variable) of a node above it; a node of type SOLUTION has a solution *)
Theorem c61_reachable fk rng nm n bf k e v s0 s1 :
  safely fk rng nm n n ([mkroot e v], 0) 0 = Ok s0 -> Search.run fk rng nm n bf k s0 (Some 0) = Ok s1 ->
  Tree (fst s1) /\ NoRep (fst s1) /\ SolSet (fst s1).
Proof.
  intros H0 H1. apply safely_grow in H0. apply run_grow in H1. cbn [fst] in H0.
  change (Good (fst s1)). eapply Good_grow; [exact H1|]. eapply Good_grow; [exact H0|]. apply Good_root.
Qed.
(** ... and also the heap after the solutions have been carried back *)
Theorem c61_backwards fk h h' s : Tree h -> NoRep h -> SolSet h -> go_backwards fk h = Ok (h', s) ->
  Tree h' /\ NoRep h' /\ SolSet h'.
Proof. intros HT HN HS H. apply go_backwards_grow in H. change (Good h'). eapply Good_grow; [exact H|]. exact (conj HT (conj HN HS)). Qed.

(** ** C64: the loop never runs out of nodes *)
(** The loop with the "no next node" case replaced by anything at all. *)
Fixpoint run_any (X : res st) (fk : fkern) (rng : string -> expr -> bool) (nm : nat -> string) (n : nat) (bf : bool)
  (k : nat) (s : st) (cur : option nat) : res st :=
  match cur with
  | None => X
  | Some i =>
      '(s1, a) <- cycle fk rng nm n bf s i;;
      match k with
      | O => Ok s1
      | S k' =>
          fin <- finished (fst s1) 0;;
          if fin : bool then Ok s1
          else match a with
               | NSolved => j <- next_bf (fst s1);; run_any X fk rng nm n bf k' s1 (Some j)
               | NNode j => run_any X fk rng nm n bf k' s1 (Some j)
               | NNone => run_any X fk rng nm n bf k' s1 None
               end
      end
  end.
Lemma grow_len h h' : grow h h' -> List.length h <= List.length h'.
Proof.
  induction 1 as [|a b c P G IH]; auto. eapply Nat.le_trans; [|exact IH]. clear -P.
  assert (L : forall h i f, List.length (setn h i f) = List.length h).
  { induction h as [|q r IH]; intros [|i] f; cbn; auto. }
  destruct P; rewrite ?L; auto. unfold append. rewrite L, app_length. lia.
Qed.
Lemma cycle_next fk rng nm n bf s i s1 a : Tree (fst s) -> i < List.length (fst s) -> cycle fk rng nm n bf s i = Ok (s1, a) ->
  finished (fst s1) 0 = Ok false ->
  match a with NNone => False | NSolved => True | NNode j => leaf (fst s1) j /\ finished (fst s1) j = Ok false end.
Proof.
  intros HT Hi H HF. pose proof (cycle_grow _ _ _ _ _ _ _ _ _ H) as G. pose proof (Tree_grow _ _ G HT) as T1.
  unfold cycle in H. destruct s as [h x]. cbn [fst] in *. apply bind_ok in H as (l & Hl & H). apply bind_ok in H as (h1 & Hh & H).
  assert (G1 : grow h h1). { eapply (foldM_grow (check_solvable fk) l); [|exact Hh]. intros; eapply check_grow; eauto. }
  pose proof (Tree_grow _ _ G1 HT) as T'. pose proof (grow_len _ _ G1).
  apply bind_ok in H as (ul & Hul & H). destruct ul as [|j ul]; [injection H as <- <-; exact I|].
  destruct (c35_unfinished_leaves h1 T' i) as (ul' & Hu & E); [lia|]. rewrite Hul in Hu. injection Hu as <-.
  assert (Hj : j < List.length h1). { destruct (proj1 (E j) (or_introl eq_refl)) as (A & _). eapply below_lt; eauto. }
  apply bind_ok in H as (s2 & Hs & H). apply heuristically_grow in Hs. cbn [fst] in Hs. pose proof (grow_len _ _ Hs).
  apply bind_ok in H as (a' & Ha & H). injection H as <- <-.
  destruct bf.
  - apply bind_ok in Ha as (k & Hk & Ha). injection Ha as <-.
    destruct (c63_breadth_first (fst s2) T1) as [(j' & X1 & X2 & X3 & X4)|[X1 _]]; auto; [lia| |]; rewrite X1 in Hk; [injection Hk as <-; auto|discriminate].
  - eapply (c64_depth_first (fst s2) T1 n j a') in Ha; [|lia]. destruct a'; auto.
    + destruct Ha as [Ha|Ha]; auto. congruence.
    + unfold finished in HF. apply bind_ok in HF as (b & Hb & HF). destruct b; congruence.
Qed.
Theorem c64_loop X fk rng nm n bf k : forall s i, Tree (fst s) -> i < List.length (fst s) ->
  Search.run fk rng nm n bf k s (Some i) = run_any X fk rng nm n bf k s (Some i).
Proof.
  induction k as [|k IH]; intros s i HT Hi; cbn [Search.run run_any]; destruct (cycle fk rng nm n bf s i) as [[s1 a]| |] eqn:C; cbn [bind]; auto.
  destruct (finished (fst s1) 0) as [fin| |] eqn:F; cbn [bind]; auto. destruct fin; auto.
  pose proof (cycle_next _ _ _ _ _ _ _ _ _ HT Hi C F) as N.
  pose proof (Tree_grow _ _ (cycle_grow _ _ _ _ _ _ _ _ _ C) HT) as T1. pose proof (grow_len _ _ (cycle_grow _ _ _ _ _ _ _ _ _ C)) as L.
  destruct a as [|j|]; [| |destruct N].
  - destruct (c63_breadth_first (fst s1) T1) as [(j & H1 & H2 & H3 & H4)|[H1 _]]; auto; [lia| |]; rewrite H1; cbn [bind]; [|reflexivity]. apply IH; auto.
    destruct H3 as (q & Hq & _). eapply at_lt; eauto.
  - apply IH; auto. destruct N as [(q & Hq & _) _]. eapply at_lt; eauto.
Qed.

(** ** C26: splitting a sum *)
(** [t] repeats, up to the variable, the integrand of [p] or of a node above *)
Definition repeats (h : heap) (p : nat) (v : string) (t : expr) : Prop :=
  exists j m, (j = p \/ above h j p) /\ nth_error h j = Some m /\ eq_with_var (nd_v m) v (nd_e m) t = true.
Lemma anc_in h : Tree h -> forall f i j, In j (anc f h i) -> i < List.length h -> j = i \/ above h j i.
Proof.
  intros T f. induction f as [|f IH]; intros i j H Hi; [destruct H|]. cbn [anc] in H. destruct H as [<-|H]; [now left|].
  destruct (nth_error h i) as [q|] eqn:Hq; [|destruct H]. destruct (nd_p q) as [p|] eqn:Pq; [|destruct H].
  destruct (T _ _ Hq) as (_ & _ & X). rewrite Pq in X. destruct X as (Lt & _).
  right. destruct (IH p j H) as [->|A]; [lia|eapply ab_par; eauto|eapply ab_up; eauto].
Qed.
Theorem c26_dropped h p c : Tree h -> p < List.length h -> nd_fill c = false ->
  (dropped h p c = true <-> repeats h p (nd_v c) (nd_e c)).
Proof.
  intros T Hp Fc. unfold dropped. rewrite Fc. cbn [negb andb]. rewrite existsb_exists. unfold parents. split.
  - intros (j & Hj & E). destruct (nth_error h j) as [m|] eqn:Hm; [|discriminate]. exists j, m. split; auto. eapply anc_in; eauto.
  - intros (j & m & A & Hm & E). exists j. rewrite Hm. split; auto. destruct A as [->|A]; [cbn [anc]; now left|].
    destruct (node_at h p Hp) as [q Hq]. destruct (anc_above h T (S p) p j (Nat.lt_succ_diag_r p) A q Hq) as (p' & P1 & P2 & P3).
    cbn [anc]. right. rewrite Hq, P1. now replace (S p - 1) with p in P3 by lia.
Qed.
Lemma skipn_next {A} (l : list A) : forall d a r, skipn d l = a :: r -> skipn (S d) l = r.
Proof. induction l as [|x l IH]; intros [|d] a r H; cbn [skipn] in *; try discriminate; [now injection H as _ ->|]. eapply IH; eauto. Qed.
(** the children [l] are new nodes of the heap with integrands [ts] *)
Definition split_into (h : heap) (p : nat) (v : string) (l : list nat) (ts : list expr) : Prop :=
  Forall2 (fun k t => exists c, nth_error h k = Some c /\ nd_e c = t /\ nd_v c = v /\ nd_t c = Some TAdd /\ nd_p c = Some p) l ts.
Theorem c26_exact fk h p q v ts h' : Tree h -> nth_error h p = Some q -> additivity fk h p v ts = Ok h' ->
  exists q' l ts', nth_error h' p = Some q' /\ nd_ty q' = AND /\ nd_kids q' = nd_kids q ++ l /\ split_into h' p v l ts' /\
    ts' = filter (fun t => negb (dropped h p (mkn t v TAdd p))) ts.
Proof.
  intros T Hq H. unfold additivity in H. rewrite (get_some _ _ _ Hq) in H. cbn [bind] in H. apply guard_inv in H. injection H as <-.
  set (ts' := filter (fun t => negb (dropped h p (mkn t v TAdd p))) ts).
  assert (EK : filter (fun c => negb (dropped h p c)) (map (fun t => mkn t v TAdd p) ts) = map (fun t => mkn t v TAdd p) ts').
  { subst ts'. clear. induction ts as [|t ts IH]; cbn [map filter]; auto. destruct (negb _); cbn [map]; now rewrite IH. }
  rewrite EK. set (h0 := setn h p (set_ty AND)). set (cs := map _ ts').
  assert (H0 : nth_error h0 p = Some (set_ty AND q)) by (unfold h0; rewrite nth_setn, Nat.eqb_refl, Hq; reflexivity).
  assert (L0 : p < List.length h0) by (eapply at_lt; eauto).
  exists (add_kids (seq (List.length h0) (List.length cs)) (set_ty AND q)), (seq (List.length h0) (List.length cs)), ts'.
  split. { rewrite nth_append, Nat.eqb_refl, nth_error_app1, H0 by auto. reflexivity. }
  split; [reflexivity|]. split; [reflexivity|]. split; [|reflexivity].
  assert (N : forall k, k < List.length cs -> exists c, nth_error cs k = Some c /\ nth_error (append h0 p cs) (List.length h0 + k) = Some c).
  { intros k Hk. apply append_new; auto. }
  unfold split_into. assert (G : forall d l, map (fun t => mkn t v TAdd p) l = skipn d cs ->
    Forall2 (fun k t => exists c, nth_error (append h0 p cs) k = Some c /\ nd_e c = t /\ nd_v c = v /\ nd_t c = Some TAdd /\ nd_p c = Some p)
      (seq (List.length h0 + d) (List.length l)) l).
  { intros d l. revert d. induction l as [|t l IH]; intros d E; cbn [List.length seq]; constructor.
    - assert (Ed : nth_error cs d = Some (mkn t v TAdd p)).
      { rewrite <- (firstn_skipn d cs), <- E. rewrite nth_error_app2; rewrite firstn_length; [|lia].
        assert (d <= List.length cs). { destruct (Nat.le_gt_cases d (List.length cs)); auto. rewrite skipn_all2 in E by lia. discriminate. }
        rewrite Nat.min_l, Nat.sub_diag by auto. reflexivity. }
      destruct (N d) as (c & H1 & H2); [eapply nth_error_Some; congruence|]. rewrite Ed in H1. injection H1 as <-. eexists. split; [exact H2|auto].
    - replace (S (List.length h0 + d)) with (List.length h0 + S d) by lia. apply IH.
      symmetry in E |- *. cbn [map] in E. eapply skipn_next; eauto. }
  specialize (G 0 ts' eq_refl). rewrite Nat.add_0_r in G. unfold cs at 2. now rewrite map_length.
Qed.
(** no summand is lost, unless it repeats an integrand above *)
Theorem c26_lossless fk h p q v ts h' : Tree h -> nth_error h p = Some q -> additivity fk h p v ts = Ok h' ->
  (forall t, In t ts -> ~ repeats h p v t) ->
  exists q' l, nth_error h' p = Some q' /\ nd_ty q' = AND /\ nd_kids q' = nd_kids q ++ l /\ split_into h' p v l ts.
Proof.
  intros T Hq H N. destruct (c26_exact fk h p q v ts h' T Hq H) as (q' & l & ts' & A & B & C & D & E). exists q', l. repeat (split; auto).
  replace ts with ts'; auto. rewrite E. clear -N T Hq. induction ts as [|t ts IH]; cbn [filter]; auto.
  destruct (dropped h p (mkn t v TAdd p)) eqn:Dr; cbn [negb].
  - exfalso. apply (N t); [now left|]. apply c26_dropped in Dr; auto. eapply at_lt; eauto.
  - f_equal. apply IH. intros s Hs. apply N. now right.
Qed.
(** the monitor accepts a split only if it is complete *)
Theorem c26_monitored fk h p q v ts h' : k_strict fk = true -> Tree h -> nth_error h p = Some q -> additivity fk h p v ts = Ok h' ->
  exists q' l, nth_error h' p = Some q' /\ nd_ty q' = AND /\ nd_kids q' = l /\ split_into h' p v l ts.
Proof.
  intros ST T Hq H. destruct (c26_exact fk h p q v ts h' T Hq H) as (q' & l & ts' & A & B & C & D & E). exists q', l. split; auto. split; auto.
  unfold additivity in H. rewrite (get_some _ _ _ Hq) in H. cbn [bind] in H. unfold guard in H. rewrite ST in H. cbn [negb orb] in H.
  destruct (_ && _) eqn:Gd in H; [|discriminate]. apply andb_prop in Gd as [Gd G3]. apply andb_prop in Gd as [G1 G2].
  split. { rewrite C. destruct (nd_kids q); [reflexivity|discriminate]. }
  replace ts with ts'; auto. rewrite E. apply Nat.eqb_eq in G3. clear -G3.
  revert G3. induction ts as [|t ts IH]; cbn [map filter List.length]; auto.
  assert (LE : forall l : list expr, List.length (filter (fun c => negb (dropped h p c)) (map (fun t => mkn t v TAdd p) l)) <= List.length l).
  { induction l as [|a l IHl]; cbn [map filter List.length]; auto. destruct (negb _); cbn [List.length]; lia. }
  destruct (negb _); cbn [List.length]; intros G; [f_equal; apply IH; lia|]. specialize (LE ts). lia.
Qed.

(** ** Concrete cases *)
Notation run0 e := (s0 <- safely plf (fun _ _ => true) unm 40 40 ([mkroot e "x"], 0) 0;; Search.run plf (fun _ _ => true) unm 40 false 25 s0 (Some 0)).
(** the tree built for x sin x: solved, at least four nodes; the tree for e^(x^2): failed *)
Example c61_ex :
  (exists s, run0 (EProd [sx; ETrig Sin sx]) = Ok s /\ 4 <= List.length (fst s) /\ solved (fst s) 0 = Ok true /\ failed (fst s) 0 = Ok false /\ sol_leaves (fst s)) /\
  (exists s, run0 (EPow EE (EPow sx (ERat 2))) = Ok s /\ solved (fst s) 0 = Ok false /\ failed (fst s) 0 = Ok true).
Proof.
  split.
  - eexists. split; [vm_compute; reflexivity|]. split; [cbn; lia|]. split; [vm_compute; reflexivity|]. split; [vm_compute; reflexivity|].
    intros i q H Ty. repeat (destruct i as [|i]; [injection H as <-; (discriminate Ty || reflexivity)|]). destruct i; discriminate.
  - eexists. split; [vm_compute; reflexivity|]. split; vm_compute; reflexivity.
Qed.
(** an unfinished tree of the search (after the safe steps on x^2 sin x + e^x): the next node exists *)
Example c63_ex : exists s j, safely plf (fun _ _ => true) unm 40 40 ([mkroot (ESum [EProd [EPow sx (ERat 2); ETrig Sin sx]; EPow EE sx]) "x"], 0) 0 = Ok s /\
  Tree (fst s) /\ finished (fst s) 0 = Ok false /\ next_bf (fst s) = Ok j /\ j <> 0.
Proof.
  destruct (safely plf (fun _ _ => true) unm 40 40 ([mkroot (ESum [EProd [EPow sx (ERat 2); ETrig Sin sx]; EPow EE sx]) "x"], 0) 0) as [s| |] eqn:E;
    [|vm_compute in E; discriminate|vm_compute in E; discriminate].
  exists s, 1. split; [reflexivity|]. split; [eapply Tree_grow; [eapply safely_grow; exact E|apply Tree_root]|].
  vm_compute in E. injection E as <-. split; [vm_compute; reflexivity|]. split; [vm_compute; reflexivity|discriminate].
Qed.
(** C26: if a summand repeats an integrand above, it is lost, and the sum is "solved" without it: x + sin x below
    sin x gets the solution x^2/2 *)
Definition lossy : heap :=
  [nd0 (ETrig Sin sx) "x" None None UNSET None [1]; nd0 (ESum [sx; ETrig Sin sx]) "x" (Some (TId IExpand)) (Some 0) UNSET None []].
Theorem c26_lost_summand_refuted :
  Tree lossy /\ repeats lossy 1 "x" (ETrig Sin sx) /\
  exists h1 h2 h3 q, additivity plf lossy 1 "x" [sx; ETrig Sin sx] = Ok h1 /\ check_solvable plf h1 2 = Ok h2 /\ solved h2 0 = Ok true /\
    go_backwards plf h2 = Ok (h3, EProd [ERat (1 # 2); EPow sx (ERat 2)]) /\
    nth_error h3 1 = Some q /\ nd_e q = ESum [sx; ETrig Sin sx] /\ nd_sol q = Some (EProd [ERat (1 # 2); EPow sx (ERat 2)]).
Proof.
  split; [|split].
  - intros i q H. destruct i as [|[|i]]; [..|destruct i; discriminate]; injection H as <-; cbn.
    + split; [intros k [<-|[]]; split; [lia|eexists; cbn; eauto]|]. split; [repeat constructor; simpl; tauto|reflexivity].
    + split; [intros k []|]. split; [constructor|]. split; [lia|]. eexists. cbn. split; [reflexivity|cbn; auto].
  - exists 0. eexists. split; [right; eapply ab_par; reflexivity|]. split; [reflexivity|vm_compute; reflexivity].
  - do 4 eexists. split; [vm_compute; reflexivity|]. split; [vm_compute; reflexivity|]. split; [vm_compute; reflexivity|].
    split; [vm_compute; reflexivity|]. split; [reflexivity|]. split; reflexivity.
Qed.
(** C35: without the condition on SOLUTION nodes a node can be both solved and failed *)
Definition both : heap :=
  [nd0 sx "x" None None SOLUTION (Some sx) [1]; nd0 sy "x" (Some (TId IExpand)) (Some 0) FAILURE None []].
Theorem c35_both_refuted : Tree both /\ solved both 0 = Ok true /\ failed both 0 = Ok true.
Proof.
  split; [|split; vm_compute; reflexivity].
  intros i q H. destruct i as [|[|i]]; [..|destruct i; discriminate]; injection H as <-; cbn.
  - split; [intros k [<-|[]]; split; [lia|eexists; cbn; eauto]|]. split; [repeat constructor; simpl; tauto|reflexivity].
  - split; [intros k []|]. split; [constructor|]. split; [lia|]. eexists. cbn. split; [reflexivity|cbn; auto].
Qed.
