(** * IntTree2: the integration search when LinearUSub applies too (for C96).

    [IntTree] with nodes in more than one variable: a safe transform may also replace a linear
    argument by a fresh variable. *)
From Coquelicot Require Import Coquelicot.
From Verif Require Import Base Expr Kernel Mono Funcs FMono Calc Sem RealLemmas Sound Atoms Combi Expand Factor Regex Simp TrigSimp Table Trans
  Search SearchMono SearchSound Shape PropsG Frag FragNum FragLib.
From Coq Require Import Permutation.
Close Scope R_scope.
Open Scope nat_scope.
Local Notation append := Search.append.

Section Tree.
Context (fk : fkern) (rng : string -> expr -> bool) (nm : nat -> string) (d : nat) (v : string).
(** a size that renaming does not change *)
Context (mu : expr -> nat) (Murn : forall a b e, mu (rename a b e) = mu e).
(** [CM y]: the integrands in the variable [y] (single terms); [CP]: those of the root (terms and sums); [LF y]: the terms that are looked up in
    the table; [LU y]: the terms to which LinearUSub applies; [KC]: the constant size that PullConstant takes out of every other term. *)
Context (CM LF LU : string -> expr -> Prop) (CP KC : expr -> Prop) (Mpos : forall y t, CM y t -> 1 <= mu t) (Mnsum : forall y t, CM y t -> is_sum t = false)
  (Mcase : forall y t, CM y t -> LF y t \/ LU y t \/ exists ts, t = EProd ts) (LM : forall t, CP t -> LF v t -> CM v t)
  (Pcase : forall t, CP t -> CM v t \/ exists ts, t = ESum ts /\ ts <> [] /\ Forall (CM v) ts)
  (Pull : forall y ts, CM y (EProd ts) -> exists t p, pull_const fk y (EProd ts) = Ok (Some (t, p)) /\ KC t /\ CM y p /\ mu p < mu (EProd ts))
  (Safe : forall (h : heap) x i q, nth_error h i = Some q -> LF (nd_v q) (nd_e q) -> CM (nd_v q) (nd_e q) -> safe_step fk rng nm d (h, x) i = Ok (h, x)).
(** [SM y], [SP]: the antiderivatives (of single terms; of sums), any classes that contain what the table gives and that the way back keeps;
    [UL y z u]: the substituted expressions u, in y, for the variable z *)
Context (SM : string -> expr -> Prop) (SP : expr -> Prop) (SMP : forall t, SM v t -> SP t) (UL : string -> string -> expr -> Prop)
  (Stab : forall y t, LF y t -> CM y t -> exists r, table fk y t = Ok (Some r) /\ SM y r)
  (Smul : forall y k t, KC k -> SM y t -> exists r, op_mul fk k t = Ok r /\ SM y r)
  (Ssum : forall l, Forall (SM v) l -> exists r, k_sum fk l = Ok r /\ SP r)
  (Usub : forall (h : heap) x i q, nth_error h i = Some q -> LU (nd_v q) (nd_e q) -> CM (nd_v q) (nd_e q) ->
    exists u g, UL (nd_v q) (nm x) u /\ CM (nm x) g /\ mu g < mu (nd_e q) /\
      safe_step fk rng nm d (h, x) i = (h' <- add1 fk h i (mkn g (nm x) (TUSub ULin u) i);; Ok (h', S x)))
  (Ssub : forall y z u t, UL y z u -> SM z t -> contains y t = false /\ exists r, replaceE fk t (ESym z) u = Ok r /\ SM y r).

(** ** The tree *)
(** how a node hangs below its parent *)
Definition par_ok (h : heap) (i : nat) (q : node) : Prop :=
  match nd_p q with
  | None => True
  | Some p => exists m, nth_error h p = Some m /\
      match nd_t q with
      | Some (TPull k) => KC k /\ nd_v q = nd_v m /\ is_sum (nd_e m) = false /\ mu (nd_e q) < mu (nd_e m)
      | Some TAdd => p = 0 /\ nd_v q = nd_v m /\ is_sum (nd_e m) = true
      | Some (TUSub _ u) => UL (nd_v m) (nd_v q) u /\ is_sum (nd_e m) = false /\ mu (nd_e q) < mu (nd_e m)
      | _ => False
      end
  end.
Definition node_ok (h : heap) (i : nat) (q : node) : Prop :=
  nd_only q = None /\ (i = 0 -> nd_v q = v /\ CP (nd_e q)) /\ (i <> 0 -> CM (nd_v q) (nd_e q)) /\ par_ok h i q /\
  (nd_ty q = AND \/ nd_ty q = UNSET \/ (nd_ty q = SOLUTION /\ nd_kids q = [] /\ nd_sol q <> None)) /\
  (forall F, nd_sol q = Some F -> (i = 0 -> SP F) /\ (i <> 0 -> SM (nd_v q) F)).
Definition W (h : heap) : Prop := Tree h /\ forall i q, nth_error h i = Some q -> node_ok h i q.
(** nothing solved yet *)
Definition NS (h : heap) : Prop := forall i q, nth_error h i = Some q -> nd_ty q <> SOLUTION.
Definition ready (h : heap) (j : nat) : Prop := forall q, nth_error h j = Some q -> nd_kids q = [] -> LF (nd_v q) (nd_e q).

Lemma above_big h j i q m : W h -> above h j i -> nth_error h i = Some q -> nth_error h j = Some m ->
  is_sum (nd_e m) = true \/ mu (nd_e q) < mu (nd_e m).
Proof.
  intros [T HW] A. revert q. induction A as [i q' H1 H2|i q' p H1 H2 H3 IH]; intros q Hq Hm; rewrite Hq in H1; injection H1 as <-;
    destruct (HW _ _ Hq) as (_ & _ & _ & P & _); unfold par_ok in P; rewrite H2 in P; destruct P as (m' & Hm' & P).
  - rewrite Hm in Hm'. injection Hm' as <-. destruct (nd_t q) as [[k| |k u|]|]; try contradiction; [right|left|right]; apply P.
  - assert (D : p = 0 \/ mu (nd_e q) < mu (nd_e m')). { destruct (nd_t q) as [[k| |k u|]|]; try contradiction; [right|left|right]; apply P. }
    destruct D as [->|D]; [exfalso; apply above_lt in H3; auto; lia|]. destruct (IH m' Hm' Hm) as [G|G]; auto. right. lia.
Qed.
Lemma sum_rename a b e : is_sum (rename a b e) = is_sum e.
Proof. destruct e; try reflexivity. cbn [rename]. now destruct (String.eqb _ _). Qed.
Lemma not_dropped h i q p y t : W h -> nth_error h i = Some q -> CM y p -> (is_sum (nd_e q) = true \/ mu p < mu (nd_e q)) ->
  dropped h i (mkn p y t i) = false.
Proof.
  intros HW Hq Mp L. unfold dropped. cbn [nd_fill nd_v nd_e mkn negb andb].
  destruct (existsb _ (parents h i)) eqn:E; auto. exfalso. apply existsb_exists in E as (j & Hj & E).
  destruct (nth_error h j) as [m|] eqn:Hm; [|discriminate]. destruct HW as [T HW].
  apply eq_with_var_rename in E. pose proof (Mnsum _ _ Mp) as Sp. assert (Em : mu p = mu (nd_e m) /\ is_sum (nd_e m) = false) by (subst p; now rewrite Murn, <- (sum_rename (nd_v m) y)).
  destruct Em as [Em Sm]. clear E.
  apply anc_in in Hj; auto; [|now apply nth_error_Some; rewrite Hq]. destruct Hj as [->|A].
  - rewrite Hq in Hm. injection Hm as <-. destruct L as [L|L]; [congruence|lia].
  - destruct (above_big h j i q m (conj T HW) A Hq Hm) as [G|G]; [congruence|].
    destruct L as [L|L]; [|lia]. destruct (Nat.eq_dec i 0) as [->|Hi]; [apply above_lt in A; auto; lia|].
    destruct (HW _ _ Hq) as (_ & _ & M & _). rewrite (Mnsum _ _ (M Hi)) in L. discriminate.
Qed.

Lemma core_facts q q0 : core q = core q0 -> nd_e q = nd_e q0 /\ nd_v q = nd_v q0 /\ nd_t q = nd_t q0 /\ nd_p q = nd_p q0.
Proof. unfold core. intros H. injection H. auto. Qed.
(** appending good children keeps the tree good *)
Lemma W_append h i q cs : W h -> nth_error h i = Some q -> nd_ty q <> SOLUTION -> NS h -> Forall (fresh h i) cs ->
  (forall m, nth_error (append h i cs) i = Some m -> Forall (fun x => nd_only x = None /\ CM (nd_v x) (nd_e x) /\ nd_p x = Some i /\
     nd_ty x = UNSET /\ nd_sol x = None /\ match nd_t x with
      | Some (TPull k) => KC k /\ nd_v x = nd_v m /\ is_sum (nd_e m) = false /\ mu (nd_e x) < mu (nd_e m)
      | Some TAdd => i = 0 /\ nd_v x = nd_v m /\ is_sum (nd_e m) = true
      | Some (TUSub _ u) => UL (nd_v m) (nd_v x) u /\ is_sum (nd_e m) = false /\ mu (nd_e x) < mu (nd_e m)
      | _ => False
      end) cs) -> W (append h i cs) /\ NS (append h i cs).
Proof.
  intros [T HW] Hq Nq HN Fr G. pose proof (nth_lt _ _ _ Hq) as Li.
  destruct (append_old h i cs i q Hq) as (m & Hm & Cm & _). specialize (G m Hm). rewrite Forall_forall in G.
  assert (NN : NS (append h i cs)).
  { intros j r Hj. apply append_cases in Hj as [(r0 & H0 & C & Ty & _)|[_ Hi]]; auto; [rewrite Ty; eauto|].
    destruct (G _ Hi) as (_ & _ & _ & Ty & _). rewrite Ty. discriminate. }
  split; auto. split; [eapply Tree_app; eauto|]. intros j r Hj. pose proof Hj as Hj0.
  apply append_cases in Hj as [(r0 & H0 & C & Ty & So & Fi & _)|[Lj Hi]]; auto.
  - destruct (HW _ _ H0) as (A2 & A3 & A4 & A5 & A6 & A7). apply core_facts in C as (C1 & C2 & C3 & C4).
    assert (On : nd_only r = None).
    { rewrite nth_append in Hj0. rewrite (nth_app_l _ _ _ _ H0) in Hj0. destruct (Nat.eqb i j); cbn in Hj0; injection Hj0 as <-; auto. }
    unfold node_ok. rewrite C1, C2, Ty, So. splits; auto.
    + unfold par_ok in *. rewrite C4, C3, C1. destruct (nd_p r0) as [p|]; auto. destruct A5 as (m0 & Hm0 & A5).
      destruct (append_old h i cs p m0 Hm0) as (m1 & Hm1 & D & _). apply core_facts in D as (D & D2 & _). exists m1. rewrite D, D2, C2. auto.
    + destruct A6 as [A6|[A6|(A6 & _)]]; auto. exfalso. apply (HN _ _ H0 A6).
  - destruct (G _ Hi) as (B2 & B3 & B4 & B5 & B6 & B7). unfold node_ok. rewrite B5, B6. splits; auto; try discriminate; try (intros ->; lia).
    unfold par_ok. rewrite B4. exists m. auto.
Qed.

Lemma append_other h i cs j : j < List.length h -> j <> i -> nth_error (append h i cs) j = nth_error h j.
Proof. intros L N. rewrite nth_append. destruct (Nat.eqb_spec i j); [congruence|]. now rewrite nth_error_app1. Qed.
Lemma append_len h i cs : List.length (append h i cs) = List.length h + List.length cs.
Proof. unfold Search.append. rewrite setn_length. apply app_length. Qed.

(** adding one child, and going on with it *)
Lemma safely_child k h x i q p y t : (forall h x i q, W h -> NS h -> nth_error h i = Some q -> nd_kids q = [] -> CM (nd_v q) (nd_e q) -> mu (nd_e q) <= k ->
    exists h' x', safely fk rng nm d k (h, x) i = Ok (h', x') /\ W h' /\ NS h' /\ List.length h <= List.length h' /\
    (forall j, j < List.length h -> j <> i -> nth_error h' j = nth_error h j) /\ (forall j, j = i \/ List.length h <= j -> ready h' j)) ->
  W h -> NS h -> nth_error h i = Some q -> nd_kids q = [] -> CM (nd_v q) (nd_e q) -> CM y p -> mu p < mu (nd_e q) -> mu (nd_e q) <= S k ->
  match t with
  | TPull k => KC k /\ y = nd_v q
  | TUSub _ u => UL (nd_v q) y u
  | _ => False
  end ->
  exists h1, add1 fk h i (mkn p y t i) = Ok h1 /\ exists h' x', (q' <- Search.get h1 i;; foldM (safely fk rng nm d k) (nd_kids q') (h1, x)) = Ok (h', x') /\
    W h' /\ NS h' /\ List.length h <= List.length h' /\
    (forall j, j < List.length h -> j <> i -> nth_error h' j = nth_error h j) /\ (forall j, j = i \/ List.length h <= j -> ready h' j).
Proof.
  intros IH HW HN Hq Kq Mq Mp Lp Lq HT. pose proof (proj2 HW _ _ Hq) as (On & _). pose proof (nth_lt _ _ _ Hq) as Li.
  assert (Dr : dropped h i (mkn p y t i) = false) by (apply (not_dropped h i q); auto).
  set (cs := [mkn p y t i]). set (h1 := append h i cs). exists h1. split.
  { unfold add1. rewrite (get_some _ _ _ Hq). cbn [bind]. unfold regular, no_add. rewrite On, Kq. cbn [forallb andb]. rewrite orb_true_r. cbn [guard]. now rewrite Dr. }
  assert (Sq : is_sum (nd_e q) = false) by now apply (Mnsum (nd_v q)).
  destruct (W_append h i q cs HW Hq (HN _ _ Hq) HN) as [W1 N1'].
  { constructor; auto. now apply fresh_mkn. }
  { intros m Hm. constructor; auto. destruct (append_old h i cs i q Hq) as (m' & Hm' & Cm & _). rewrite Hm in Hm'. injection Hm' as <-.
    apply core_facts in Cm as (C1 & C2 & _). cbn. rewrite C1, C2. splits; auto. destruct t as [k0| |k0 u|]; try contradiction; [destruct HT; splits; auto|splits; auto]. }
  destruct (append_old h i cs i q Hq) as (qi & Hqi & Ci & Ki). rewrite Nat.eqb_refl, Kq in Ki. cbn in Ki. fold h1 in Hqi.
  rewrite (get_some _ _ _ Hqi). cbn [bind]. rewrite Ki. cbn [foldM].
  destruct (append_new h i cs 0) as (qn & Hn & Hn'); [simpl; lia|auto|]. injection Hn as <-. rewrite Nat.add_0_r in Hn'.
  destruct (IH h1 x (List.length h) (mkn p y t i)) as (h' & x' & Es & W' & N' & L' & U' & R'); auto.
  { cbn [nd_e mkn]. lia. }
  assert (L1 : List.length h1 = S (List.length h)) by (unfold h1; rewrite append_len; simpl; lia).
  rewrite Es. cbn [bind]. exists h', x'. splits; auto; [lia| |].
  - intros j Lj Nj. rewrite U' by lia. now apply append_other.
  - intros j [->|Lj].
    + intros r Hr Kr. rewrite U' in Hr by lia. rewrite Hqi in Hr. injection Hr as <-. rewrite Ki in Kr. discriminate.
    + apply R'. lia.
Qed.
Lemma safely_mono k : forall h x i q, W h -> NS h -> nth_error h i = Some q -> nd_kids q = [] -> CM (nd_v q) (nd_e q) -> mu (nd_e q) <= k ->
  exists h' x', safely fk rng nm d k (h, x) i = Ok (h', x') /\ W h' /\ NS h' /\ List.length h <= List.length h' /\
    (forall j, j < List.length h -> j <> i -> nth_error h' j = nth_error h j) /\
    (forall j, j = i \/ List.length h <= j -> ready h' j).
Proof.
  induction k as [|k IH]; intros h x i q HW HN Hq Kq Mq Lq; [pose proof (Mpos _ _ Mq); lia|]. cbn [safely].
  pose proof (proj2 HW _ _ Hq) as (On & _). pose proof (nth_lt _ _ _ Hq) as Li.
  destruct (Mcase _ _ Mq) as [F|[F|(ts & Et)]].
  - rewrite (Safe h x i q Hq F Mq). cbn [bind fst]. rewrite (get_some _ _ _ Hq). cbn [bind]. rewrite Kq. cbn [foldM].
    exists h, x. splits; auto. intros j [->|Lj] r Hr _; [rewrite Hq in Hr; injection Hr as <-; exact F|apply nth_lt in Hr; lia].
  - destruct (Usub h x i q Hq F Mq) as (u & g & Hu & Mg & Lg & E1). rewrite E1.
    destruct (safely_child k h (S x) i q g (nm x) (TUSub ULin u) IH HW HN Hq Kq Mq Mg Lg Lq Hu) as (h1 & Ea & G). rewrite Ea. cbn [bind fst]. exact G.
  - assert (Mq' : CM (nd_v q) (EProd ts)) by now rewrite <- Et. destruct (Pull _ ts Mq') as (t & p & Ep & Kt & Mp & Lp). rewrite <- Et in Lp.
    destruct (safely_child k h x i q p (nd_v q) (TPull t) IH HW HN Hq Kq Mq Mp Lp Lq (conj Kt eq_refl)) as (h1 & Ea & G).
    unfold safe_step. rewrite (get_some _ _ _ Hq). cbn [bind]. rewrite Et, Ep. cbn [bind]. rewrite Ea. cbn [bind fst]. exact G.
Qed.
Lemma safely_list k ks : NoDup ks -> forall h x, W h -> NS h ->
  (forall i, In i ks -> exists q, nth_error h i = Some q /\ nd_kids q = [] /\ CM (nd_v q) (nd_e q) /\ mu (nd_e q) <= k) ->
  exists h' x', foldM (safely fk rng nm d k) ks (h, x) = Ok (h', x') /\ W h' /\ NS h' /\ List.length h <= List.length h' /\
    (forall j, j < List.length h -> ~ In j ks -> nth_error h' j = nth_error h j) /\
    (forall j, In j ks \/ List.length h <= j -> ready h' j).
Proof.
  induction 1 as [|i ks Ni _ IH]; intros h x HW HN H; cbn [foldM].
  - exists h, x. splits; auto. intros j [[]|Lj] q Hq. apply nth_lt in Hq. lia.
  - destruct (H i (or_introl eq_refl)) as (q & Hq & Kq & Mq & Lq).
    destruct (safely_mono k h x i q HW HN Hq Kq Mq Lq) as (h1 & x1 & E1 & W1 & N1' & L1 & U1 & R1). rewrite E1. cbn [bind].
    destruct (IH h1 x1 W1 N1') as (h2 & x2 & E2 & W2 & N2 & L2 & U2 & R2).
    { intros j Hj. destruct (H j (or_intror Hj)) as (r & Hr & A). exists r. split; auto. rewrite U1; auto; [now apply nth_lt in Hr|]. congruence. }
    exists h2, x2. splits; auto; [lia| |].
    + intros j Lj Nj. rewrite U2; [apply U1; auto; intros ->; apply Nj; now left|lia|intros Hj; apply Nj; now right].
    + intros j Hj. destruct (in_dec Nat.eq_dec j ks) as [Hk|Hk]; [apply R2; auto|].
      destruct (Nat.lt_ge_cases j (List.length h1)) as [Lj|Lj]; [|apply R2; auto].
      assert (Rj : ready h1 j) by (apply R1; destruct Hj as [[->|Hj]|Hj]; auto; contradiction).
      intros r Hr Kr. rewrite U2 in Hr by auto. now apply Rj.
Qed.

(** how deep PullConstant can go *)
Definition size (e : expr) : nat := match e with ESum ts => S (fold_right Nat.max 0 (map mu ts)) | _ => mu e end.
Lemma max_in t ts : In t ts -> mu t <= fold_right Nat.max 0 (map mu ts).
Proof. induction ts as [|a ts IH]; intros []; simpl; [subst; lia|]. specialize (IH H). lia. Qed.
Lemma W_root e : CP e -> W [mkroot e v].
Proof.
  intros P. split; [apply Tree_root|]. intros [|i] q H; [|destruct i; discriminate]. injection H as <-. unfold node_ok. cbn. splits; auto; try discriminate; try contradiction.
Qed.
Lemma safely_root k x e : CP e -> size e <= k ->
  exists h x', safely fk rng nm d k ([mkroot e v], x) 0 = Ok (h, x') /\ W h /\ NS h /\ 1 <= List.length h /\ forall j, ready h j.
Proof.
  intros P L. set (h0 := [mkroot e v]).
  assert (H0 : nth_error h0 0 = Some (mkroot e v)) by reflexivity.
  assert (N0 : NS h0). { intros [|i] q H; [|destruct i; discriminate]. injection H as <-. discriminate. }
  pose proof (Pcase e P) as D.
  destruct D as [M|(ts & -> & Ne & Ms)].
  - destruct (safely_mono k h0 x 0 (mkroot e v)) as (h & x' & E & Wh & Nh & Lh & _ & R); auto; [now apply W_root| |].
    { cbn [nd_e mkroot]. pose proof (Mnsum _ _ M) as S0. destruct e; try exact L. discriminate. }
    exists h, x'. splits; auto. intros j. apply R. simpl. lia.
  - destruct k as [|k]; [simpl in L; lia|]. cbn [safely].
    set (cs := map (fun t => mkn t v TAdd 0) ts). set (h1 := setn h0 0 (set_ty AND)).
    assert (H1 : nth_error h1 0 = Some (set_ty AND (mkroot (ESum ts) v))) by reflexivity.
    assert (Dr : forall t, In t ts -> dropped h0 0 (mkn t v TAdd 0) = false).
    { intros t Ht. eapply not_dropped; [now apply W_root|exact H0| |left; reflexivity]. rewrite Forall_forall in Ms. auto. }
    assert (Ek : filter (fun m => negb (dropped h0 0 m)) cs = cs).
    { unfold cs. clear -Dr. clearbody h0. induction ts as [|t ts IH]; auto. cbn [map filter]. rewrite Dr by now left. cbn [negb]. f_equal. apply IH. intros u Hu. apply Dr. now right. }
    assert (E1 : safe_step fk rng nm d (h0, x) 0 = Ok (append h1 0 cs, x)).
    { unfold safe_step. rewrite (get_some _ _ _ H0). cbn [bind nd_e mkroot nd_v]. unfold additivity. rewrite (get_some _ _ _ H0). cbn [bind].
      fold cs. rewrite Ek. cbn [regular nd_only mkroot nd_kids isnil andb]. unfold cs at 1. rewrite map_length, Nat.eqb_refl, orb_true_r. reflexivity. }
    rewrite E1. cbn [bind fst].
    assert (W1 : W h1).
    { split; [apply Tree_set; auto; apply Tree_root|]. intros [|i] q H; [|destruct i; discriminate]. injection H as <-. unfold node_ok. cbn. splits; auto; try discriminate; try contradiction. }
    assert (NS1 : NS h1). { intros [|i] q H; [|destruct i; discriminate]. injection H as <-. discriminate. }
    destruct (W_append h1 0 _ cs W1 H1 (NS1 _ _ H1) NS1) as [W2 N2].
    { apply Forall_forall. intros m Hm. apply in_map_iff in Hm as (t & <- & Ht). apply fresh_mkn. rewrite <- (dropped_ext h0); auto. intros j. now apply core_setn. }
    { intros m Hm. apply Forall_forall. intros r Hr. apply in_map_iff in Hr as (t & <- & Ht). cbn. splits; auto.
      - rewrite Forall_forall in Ms. auto.
      - destruct (append_old h1 0 cs 0 _ H1) as (m' & Hm' & Cm & _). rewrite Hm in Hm'. injection Hm' as <-. apply core_facts in Cm as (_ & Cm & _). now rewrite Cm.
      - destruct (append_old h1 0 cs 0 _ H1) as (m' & Hm' & Cm & _). rewrite Hm in Hm'. injection Hm' as <-. apply core_facts in Cm as (Cm & _). now rewrite Cm. }
    destruct (append_old h1 0 cs 0 _ H1) as (q0 & Hq0 & _ & K0). rewrite Nat.eqb_refl in K0. cbn [nd_kids set_ty mkroot app] in K0.
    rewrite (get_some _ _ _ Hq0). cbn [bind]. rewrite K0.
    destruct (safely_list k (seq (List.length h1) (List.length cs)) (seq_NoDup _ _) (append h1 0 cs) x W2 N2) as (h & x' & E & Wh & Nh & Lh & U & R).
    { intros i Hi. apply in_seq in Hi. change (List.length h1) with 1 in Hi. destruct (append_new h1 0 cs (i - 1)) as (r & Hr & Hr'); [lia|simpl; lia|].
      change (List.length h1) with 1 in Hr'. replace (1 + (i - 1)) with i in Hr' by lia. exists r. split; auto.
      apply nth_error_In in Hr. apply in_map_iff in Hr as (t & <- & Ht). cbn [nd_kids nd_e mkn]. splits; auto.
      - rewrite Forall_forall in Ms. auto.
      - pose proof (max_in t ts Ht). unfold size in L. lia. }
    rewrite E. exists h, x'. rewrite append_len in Lh. change (List.length h1) with 1 in *. splits; auto; [lia|].
    intros [|j].
    + intros r Hr Kr. rewrite U in Hr; [|rewrite append_len; simpl; lia|rewrite in_seq; lia]. rewrite Hq0 in Hr. injection Hr as <-. rewrite K0 in Kr.
      unfold cs in Kr. rewrite map_length in Kr. destruct ts; [congruence|discriminate].
    + destruct (Nat.lt_ge_cases (S j) (1 + List.length cs)) as [Lj|Lj]; apply R; [left; apply in_seq; lia|right; rewrite append_len; simpl; lia].
Qed.

(** ** The table at the leaves *)
Lemma W_setn h i f : W h -> (forall q, core (f q) = core q /\ nd_kids (f q) = nd_kids q /\ nd_only (f q) = nd_only q) ->
  (forall q, nth_error h i = Some q -> node_ok h i q ->
     (nd_ty (f q) = AND \/ nd_ty (f q) = UNSET \/ (nd_ty (f q) = SOLUTION /\ nd_kids (f q) = [] /\ nd_sol (f q) <> None)) /\
     (forall F, nd_sol (f q) = Some F -> (i = 0 -> SP F) /\ (i <> 0 -> SM (nd_v q) F))) -> W (setn h i f).
Proof.
  intros [T HW] Hf H. split; [apply Tree_set; auto; intros q; destruct (Hf q) as (A & B & _); auto|].
  intros j r Hj. rewrite nth_setn in Hj. destruct (Nat.eqb_spec i j) as [<-|Nj].
  - destruct (nth_error h i) as [q|] eqn:Hq; [|discriminate]. cbn in Hj. injection Hj as <-. destruct (Hf q) as (A & B & C). apply core_facts in A as (A1 & A2 & A3 & A4).
    pose proof (HW _ _ Hq) as Nq. destruct (H q eq_refl Nq) as [H1 H2]. destruct Nq as (B2 & B3 & B4 & B5 & _). unfold node_ok. rewrite A1, A2, C. splits; auto.
    unfold par_ok in *. rewrite A1, A2, A3, A4. destruct (nd_p q) as [p|] eqn:Ep; auto. destruct B5 as (m & Hm & B5). 
    rewrite nth_setn. destruct (Nat.eqb i p); rewrite Hm; cbn; eexists; split; try reflexivity; auto. destruct (Hf m) as (D & _). apply core_facts in D as (D & D2 & _). now rewrite D, D2.
  - destruct (HW _ _ Hj) as (B2 & B3 & B4 & B5 & B6 & B7). unfold node_ok. splits; auto. unfold par_ok in *. destruct (nd_p r) as [p|] eqn:Ep; auto.
    destruct B5 as (m & Hm & B5). rewrite nth_setn. destruct (Nat.eqb i p); rewrite Hm; cbn; eexists; split; try reflexivity; auto.
    destruct (Hf m) as (D & _). apply core_facts in D as (D & D2 & _). now rewrite D, D2.
Qed.
(** the same tree, apart from marks and solutions *)
Definition same (h h' : heap) : Prop := List.length h' = List.length h /\
  forall j q, nth_error h j = Some q -> exists q', nth_error h' j = Some q' /\ core q' = core q /\ nd_kids q' = nd_kids q /\
    (nd_ty q = SOLUTION -> nd_ty q' = SOLUTION) /\ (nd_sol q <> None -> nd_sol q' <> None).
Lemma same_refl h : same h h.
Proof. split; auto. intros j q Hq. exists q. splits; auto. Qed.
Lemma same_trans h1 h2 h3 : same h1 h2 -> same h2 h3 -> same h1 h3.
Proof.
  intros [L1 A1] [L2 A2]. split; [congruence|]. intros j q Hq. apply A1 in Hq as (q2 & Hq & B1 & B2 & B3 & B4).
  apply A2 in Hq as (q3 & Hq & C1 & C2 & C3 & C4). exists q3. splits; auto; congruence.
Qed.
Lemma same_setn h i f : (forall q, core (f q) = core q /\ nd_kids (f q) = nd_kids q /\ (nd_ty q = SOLUTION -> nd_ty (f q) = SOLUTION) /\ (nd_sol q <> None -> nd_sol (f q) <> None)) ->
  same h (setn h i f).
Proof.
  intros Hf. split; [apply setn_length|]. intros j q Hq. rewrite nth_setn, Hq. destruct (Nat.eqb i j); cbn; eexists; splits; eauto; apply Hf; auto.
Qed.
Lemma same_back h h' j q' : same h h' -> nth_error h' j = Some q' -> exists q, nth_error h j = Some q /\ core q' = core q /\ nd_kids q' = nd_kids q.
Proof.
  intros [L A] H. pose proof (nth_lt _ _ _ H) as Lj. rewrite L in Lj. destruct (node_at h j Lj) as [q Hq]. exists q. split; auto.
  apply A in Hq as (q2 & H2 & B1 & B2 & _). rewrite H in H2. injection H2 as <-. auto.
Qed.
Lemma below_same h h' i j : same h h' -> below h i j -> below h' i j.
Proof.
  intros S H. induction H as [i q Hq|i q k j Hq Hk H IH]; apply S in Hq as (q' & Hq' & _ & K & _); [eapply be_refl; eauto|eapply be_kid; eauto; congruence].
Qed.
Lemma below_same' h h' i j : same h h' -> below h' i j -> below h i j.
Proof.
  intros S H. induction H as [i q Hq|i q k j Hq Hk H IH]; apply (same_back h) in Hq as (q' & Hq' & _ & K); auto; [eapply be_refl; eauto|eapply be_kid; eauto; congruence].
Qed.

Lemma check_list ks : forall h, W h -> (forall i, In i ks -> exists q, nth_error h i = Some q /\ nd_kids q = [] /\ LF (nd_v q) (nd_e q)) ->
  exists h', foldM (check_solvable fk) ks h = Ok h' /\ W h' /\ same h h' /\ (forall i, In i ks -> exists q, nth_error h' i = Some q /\ nd_ty q = SOLUTION).
Proof.
  induction ks as [|i ks IH]; intros h HW H; cbn [foldM].
  - exists h. splits; auto using same_refl. intros i [].
  - destruct (H i (or_introl eq_refl)) as (q & Hq & Kq & Fq). pose proof (proj2 HW _ _ Hq) as (On & R0 & Me0 & _).
    assert (Me : CM (nd_v q) (nd_e q)). { destruct (Nat.eq_dec i 0) as [->|Ni]; auto. destruct (R0 eq_refl) as [Ev Pe]. rewrite Ev in Fq |- *. auto. }
    destruct (Stab _ _ Fq Me) as (a & Ea & Ma).
    set (f := fun q => set_sol a (set_ty SOLUTION q)).
    assert (E0 : setn (setn h i (set_ty SOLUTION)) i (set_sol a) = setn h i f).
    { clear. revert i. induction h as [|q h IHh]; intros [|i]; simpl; auto. now rewrite IHh. }
    assert (E1 : check_solvable fk h i = Ok (setn h i f)).
    { unfold check_solvable. rewrite (get_some _ _ _ Hq). cbn [bind]. rewrite Ea. cbn [bind]. unfold regular. rewrite On, orb_true_r. cbn [guard]. now rewrite E0. }
    rewrite E1. cbn [bind].
    assert (S1 : same h (setn h i f)) by (apply same_setn; intros r; splits; auto; discriminate).
    destruct (IH (setn h i f)) as (h' & E' & W' & S' & A').
    { apply W_setn; auto. intros r Hr _. rewrite Hq in Hr. injection Hr as <-. split; [|cbn; intros F0 [= <-]; split; auto; intros ->; destruct (R0 eq_refl) as [Ev _]; rewrite Ev in Ma; auto]. right. right. splits; auto. discriminate. }
    { intros j Hj. destruct (H j (or_intror Hj)) as (r & Hr & Kr & Fr). apply S1 in Hr as (r' & Hr' & C & K & _). exists r'. splits; auto; [congruence|].
      apply core_facts in C as (C & C2 & _). now rewrite C, C2. }
    exists h'. splits; auto; [eapply same_trans; eauto|]. intros j [<-|Hj]; auto. assert (Hf : nth_error (setn h i f) i = Some (f q)) by (rewrite nth_setn, Nat.eqb_refl, Hq; reflexivity).
    apply S' in Hf as (r & Hr & _ & _ & Ty & _). exists r. split; auto.
Qed.

(** ** The way back *)
Definition sol_at (h : heap) (j : nat) : Prop := exists q, nth_error h j = Some q /\ nd_sol q <> None.
Lemma sol_same h h' j : same h h' -> sol_at h j -> sol_at h' j.
Proof. intros S (q & Hq & A). apply S in Hq as (q' & Hq' & _ & _ & _ & B). exists q'. auto. Qed.
Lemma sols_cases h ks : W h -> (forall k, In k ks -> 0 < k < List.length h /\ forall q, nth_error h k = Some q -> nd_v q = v) ->
  (exists l, sols h ks = Ok l /\ Forall (SM v) l) \/ (sols h ks = Raise ValueError /\ exists k, In k ks /\ ~ sol_at h k).
Proof.
  intros HW. induction ks as [|k ks IH]; intros H; cbn [sols]; [left; exists []; auto|].
  destruct (H k (or_introl eq_refl)) as [[Lk Lk'] Hv]. destruct (node_at h k Lk') as [q Hq]. rewrite (get_some _ _ _ Hq). cbn [bind].
  destruct (nd_sol q) as [F|] eqn:E.
  - destruct (proj2 HW _ _ Hq) as (_ & _ & _ & _ & _ & A). destruct (A F E) as (_ & M).
    destruct IH as [(l & -> & Fl)|(-> & k' & Hk & N)]; [intros; apply H; now right| |].
    + left. exists (F :: l). splits; auto. constructor; auto. rewrite <- (Hv q Hq). apply M. lia.
    + right. split; auto. exists k'. split; auto. now right.
  - right. split; auto. exists k. split; [now left|]. intros (q' & Hq' & A). rewrite Hq in Hq'. injection Hq' as <-. auto.
Qed.
Lemma root_nop h q : W h -> nth_error h 0 = Some q -> nd_p q = None.
Proof. intros [T _] Hq. destruct (T _ _ Hq) as (_ & _ & P). destruct (nd_p q); auto. lia. Qed.
(** the kids of the root all solved, but not the root: impossible after a climb *)
Definition root_or (h : heap) : Prop := sol_at h 0 \/ exists q k, nth_error h 0 = Some q /\ In k (nd_kids q) /\ ~ sol_at h k.
Lemma climb_ok f : forall h i, W h -> i < f -> sol_at h i ->
  exists h', climb fk f h i = Ok h' /\ W h' /\ same h h' /\ (forall j, below h j i -> j <> 0 -> sol_at h' j) /\ root_or h'.
Proof.
  induction f as [|f IH]; intros h i HW Li (q & Hq & Sq); [lia|]. cbn [climb]. rewrite (get_some _ _ _ Hq). cbn [bind].
  pose proof (proj2 HW _ _ Hq) as (On & Pe & Me & Pa & Ty & So). pose proof (proj1 HW _ _ Hq) as (TK & _ & TP).
  assert (Up : forall j, below h j i -> j = i \/ exists p, nd_p q = Some p /\ below h j p).
  { intros j Bj. remember i as i0 eqn:Ei in Bj. revert Ei. induction Bj as [k r Hr|k r k' j' Hr Hk Bk IHb]; intros ->; [now left|].
    destruct (IHb eq_refl) as [->|(p & Ep & Bp)].
    - right. exists k. destruct (proj1 (proj1 HW _ _ Hr) _ Hk) as (_ & r' & Hr' & Er). rewrite Hq in Hr'. injection Hr' as <-. split; auto. eapply be_refl; eauto.
    - right. exists p. split; auto. eapply be_kid; eauto. }
  destruct (nd_p q) as [p|] eqn:Ep.
  2:{ exists h. subst i. splits; auto using same_refl.
      - intros j Bj Nj. destruct (Up j Bj) as [->|(p & [=] & _)]. contradiction.
      - left. exists q. auto. }
  destruct TP as (Lp & m' & Hm' & Ki). unfold par_ok in Pa. rewrite Ep in Pa. destruct Pa as (m & Hm & Pa). rewrite Hm in Hm'. injection Hm' as <-.
  destruct (nd_sol q) as [F|] eqn:Es; [|congruence]. destruct (So F eq_refl) as (_ & MF). assert (Mf : SM (nd_v q) F) by (apply MF; lia).
  pose proof (proj2 HW _ _ Hm) as (Om & Rm & _).
  assert (Al : allowed m i = true) by (unfold allowed; now rewrite Om).
  assert (Step : forall r, (p = 0 -> SP r) -> (p <> 0 -> SM (nd_v m) r) -> W (setn h p (set_sol r)) /\ same h (setn h p (set_sol r)) /\ sol_at (setn h p (set_sol r)) p).
  { intros r P0 M0. splits.
    - apply W_setn; auto. intros r' Hr' (_ & _ & _ & _ & T' & _). rewrite Hm in Hr'. injection Hr' as <-. split; [|cbn; intros G [= <-]; auto]. cbn.
      destruct T' as [T'|[T'|(T1 & T2 & T3)]]; auto. right. right. splits; auto. discriminate.
    - apply same_setn. intros r'. splits; auto. discriminate.
    - exists (set_sol r m). split; [rewrite nth_setn, Nat.eqb_refl, Hm; reflexivity|discriminate]. }
  assert (Go : forall r, (p = 0 -> SP r) -> (p <> 0 -> SM (nd_v m) r) -> exists h', climb fk f (setn h p (set_sol r)) p = Ok h' /\ W h' /\ same h h' /\
    (forall j, below h j i -> j <> 0 -> sol_at h' j) /\ root_or h').
  { intros r P0 M0. destruct (Step r P0 M0) as (W1 & S1 & A1). destruct (IH _ p W1) as (h' & E & W' & S' & B' & R'); auto; [lia|].
    exists h'. assert (S2 : same h h') by (eapply same_trans; eauto). splits; auto. intros j Bj Nj. destruct (Up j Bj) as [->|(p' & [= <-] & Bp)].
    - apply (sol_same h); auto. exists q. split; auto. now rewrite Es.
    - apply B'; auto. eapply below_same; eauto. }
  unfold backward. rewrite (get_some _ _ _ Hq). cbn [bind]. rewrite Es.
  assert (Rt : forall r, SM (nd_v m) r -> p = 0 -> SP r). { intros r Mr ->. destruct (Rm eq_refl) as [Ev _]. rewrite Ev in Mr. auto. }
  destruct (nd_t q) as [[k| |k u|]|] eqn:Et; try contradiction; rewrite Ep, (get_some _ _ _ Hm); cbn [bind].
  - destruct Pa as (Mk & Ev & _). rewrite Ev in Mf. destruct (Smul _ k F Mk Mf) as (r & Er & Mr). rewrite Er. cbn [bind]. rewrite Al, orb_true_r. cbn [guard catchV bind].
    apply Go; auto.
  - destruct Pa as (-> & _ & Sm). destruct (sols_cases h (nd_kids m) HW) as [(l & El & Ml)|(El & k & Hk & Nk)].
    { intros k Hk. destruct (kid_facts h 0 m k (proj1 HW) Hm Hk) as [L _]. split; [split|].
      - lia.
      - destruct (proj1 (proj1 HW _ _ Hm) _ Hk) as (_ & r & Hr & _). now apply nth_lt in Hr.
      - intros r Hr. destruct (proj1 (proj1 HW _ _ Hm) _ Hk) as (_ & r' & Hr' & Er'). rewrite Hr in Hr'. injection Hr' as <-.
        pose proof (proj2 HW _ _ Hr) as (_ & _ & _ & Pr & _). unfold par_ok in Pr. rewrite Er' in Pr. destruct Pr as (m' & Hm' & Pr). rewrite Hm in Hm'. injection Hm' as <-.
        destruct (Rm eq_refl) as [Ev _]. destruct (nd_t r) as [[k'| |k' u'|]|]; try contradiction.
        + destruct Pr as (_ & E & _). congruence.
        + destruct Pr as (_ & E & _). congruence.
        + exfalso. destruct Pr as (_ & E & _). congruence. }
    + rewrite El. cbn [bind]. destruct (Ssum l Ml) as (r & Er & Pr). rewrite Er. cbn [bind]. rewrite Al, orb_true_r. cbn [guard catchV bind]. apply Go; auto. intros G; contradiction.
    + rewrite El. cbn [bind catchV]. exists h. splits; auto using same_refl.
      * intros j Bj Nj. destruct (Up j Bj) as [->|(p' & [= <-] & Bp)]; [exists q; split; auto; now rewrite Es|].
        exfalso. apply Nj. clear -Bp HW. inversion Bp as [? r Hr|? r k ? Hr Hk Bk]; auto. exfalso. subst.
        assert (G : forall a b, below h a b -> a <= b).
        { induction 1 as [|a r' k' b Hr' Hk' Bk' IHb]; auto. destruct (proj1 (proj1 HW _ _ Hr') _ Hk'). lia. }
        apply G in Bk. destruct (proj1 (proj1 HW _ _ Hr) _ Hk). lia.
      * right. exists m, k. auto.
  - destruct Pa as (Hu & _). destruct (Ssub _ _ u F Hu Mf) as (Cf & r & Er & Mr). rewrite Cf. cbn [negb]. rewrite orb_true_r. cbn [guard]. rewrite Er. cbn [bind].
    rewrite Al, orb_true_r. cbn [guard catchV bind]. apply Go; auto.
Qed.

Lemma climb_list ks : forall h, W h -> (forall i, In i ks -> sol_at h i) ->
  exists h', foldM (fun h i => climb fk (S i) h i) ks h = Ok h' /\ W h' /\ same h h' /\
    (forall i j, In i ks -> below h j i -> j <> 0 -> sol_at h' j) /\ (ks <> [] -> root_or h').
Proof.
  induction ks as [|i ks IH]; intros h HW H; cbn [foldM].
  - exists h. splits; auto using same_refl; try contradiction; try (intros i j []).
  - destruct (climb_ok (S i) h i HW (Nat.lt_succ_diag_r i) (H i (or_introl eq_refl))) as (h1 & E1 & W1 & S1 & B1 & R1). rewrite E1. cbn [bind].
    destruct (IH h1 W1) as (h2 & E2 & W2 & S2 & B2 & R2).
    { intros j Hj. apply (sol_same h); auto. apply H. now right. }
    exists h2. splits; auto.
    + eapply same_trans; eauto.
    + intros a j [<-|Ha] Bj Nj; [apply (sol_same h1); auto|]. eapply B2; eauto. eapply below_same; eauto.
    + intros _. destruct ks as [|k ks]; [cbn in E2; injection E2 as <-; exact R1|]. apply R2. discriminate.
Qed.

(** every node of a tree has a leaf below it *)
Lemma leaf_below h : Tree h -> forall m i, List.length h - i <= m -> i < List.length h -> exists j, below h i j /\ leaf h j.
Proof.
  intros T. induction m as [|m IH]; intros i Lm Li; [lia|]. destruct (node_at h i Li) as [q Hq]. destruct (nd_kids q) as [|k ks] eqn:K.
  - exists i. split; [eapply be_refl; eauto|exists q; auto].
  - assert (Hk : In k (nd_kids q)) by (rewrite K; now left). destruct (kid_facts h i q k T Hq Hk) as [L _].
    destruct (IH k) as (j & Bj & Lj); [lia|lia|]. exists j. split; auto. eapply be_kid; eauto.
Qed.
(** every node of a tree is below the root *)
Lemma below_root h : Tree h -> forall m i, i < m -> i < List.length h -> forall j, below h i j -> below h 0 j.
Proof.
  intros T. induction m as [|m IH]; intros i Lm Li j Bj; [lia|]. destruct (node_at h i Li) as [q Hq]. destruct (T _ _ Hq) as (_ & _ & P).
  destruct (nd_p q) as [p|]; [|now subst]. destruct P as (Lp & r & Hr & Hk). apply (IH p); [lia|apply nth_lt in Hr; auto|]. eapply be_kid; eauto.
Qed.
Lemma not_failed h i : W h -> ~ Failed h i.
Proof.
  intros [T HW] Fi. induction Fi as [i q Hq Ty|i q Hq Ty Nk K IH|i q k Hq Ty Hk Fk IH]; auto.
  - destruct (HW _ _ Hq) as (_ & _ & _ & _ & [A|[A|(A & _)]] & _); congruence.
  - destruct (nd_kids q) as [|k ks]; [contradiction|]. apply (IH k). now left.
Qed.

Lemma back_ok h : W h -> 1 <= List.length h -> (forall j, leaf h j -> exists q, nth_error h j = Some q /\ nd_ty q = SOLUTION) ->
  solved h 0 = Ok true -> exists h' r, go_backwards fk h = Ok (h', r) /\ SP r.
Proof.
  intros HW L0 HL HS. pose proof (proj1 HW) as T. unfold go_backwards. rewrite HS. cbn [bind].
  destruct (c35_leaves h T 0) as (l & El & Hl); [lia|]. rewrite El. cbn [bind].
  destruct (filterM_spec (solved h) (Solved h) l) as (ls & Els & Hls).
  { intros j Hj. apply c35_solved; auto. apply Hl in Hj as [Bj _]. eapply below_lt; eauto. }
  rewrite Els. cbn [bind].
  assert (Hin : forall j, leaf h j -> In j ls).
  { intros j Lj. apply Hls. destruct (HL j Lj) as (q & Hq & Ty). split; [|eapply so_done; eauto]. apply Hl. split; auto.
    apply (below_root h T (S j) j); [lia|now apply nth_lt in Hq|eapply be_refl; eauto]. }
  destruct (climb_list ls h HW) as (h' & E' & W' & S' & B' & R').
  { intros i Hi. apply Hls in Hi as [Hi _]. apply Hl in Hi as [_ Li]. destruct (HL i Li) as (q & Hq & Ty). exists q. split; auto.
    destruct (proj2 HW _ _ Hq) as (_ & _ & _ & _ & [A|[A|(_ & _ & A)]] & _); congruence. }
  rewrite E'. cbn [bind].
  destruct (leaf_below h T (List.length h) 0) as (j0 & Bj0 & Lj0); [lia|lia|].
  assert (Ne : ls <> []) by (pose proof (Hin j0 Lj0) as G; destruct ls; [destruct G|discriminate]).
  assert (R0 : sol_at h' 0).
  { destruct (R' Ne) as [G|(q & k & Hq & Hk & Nk)]; auto. exfalso. apply Nk.
    destruct (same_back h h' 0 q S' Hq) as (q0 & Hq0 & _ & K0). rewrite K0 in Hk. destruct (kid_facts h 0 q0 k T Hq0 Hk) as [Lk _].
    destruct (leaf_below h T (List.length h) k) as (j & Bj & Lj); [lia|lia|]. apply (B' j k); auto. lia. }
  destruct R0 as (q & Hq & Sq). rewrite (get_some _ _ _ Hq). cbn [bind]. destruct (nd_sol q) as [r|] eqn:Er; [|congruence].
  exists h', r. split; auto. destruct (proj2 W' _ _ Hq) as (_ & _ & _ & _ & _ & A). destruct (A r Er) as (A1 & _). auto.
Qed.

Theorem integrate_tree2 bf k fin e0 e : simplifyE fk d e0 = Ok e -> CP e -> size e <= d ->
  exists r, SP r /\ integrate fk rng nm d bf k fin e0 v = (if fin then (s <- simplifyE fk d r;; Ok (Some s)) else Ok (Some r)).
Proof.
  intros Es P Ld. unfold integrate. rewrite Es. cbn [bind].
  destruct (safely_root d 0 e P Ld) as (h & x' & E & HW & HN & L0 & R). rewrite E. cbn [bind].
  pose proof (proj1 HW) as T. destruct (c35_unfinished_leaves h T 0) as (l & El & Hl); [lia|].
  destruct (check_list l h HW) as (h1 & E1 & W1 & S1 & A1).
  { intros i Hi. apply Hl in Hi as (_ & (q & Hq & Kq) & _). exists q. splits; auto. now apply (R i). }
  pose proof (proj1 W1) as T1. assert (L1 : 1 <= List.length h1) by (destruct S1 as [-> _]; auto).
  assert (HL : forall j, leaf h1 j -> exists q, nth_error h1 j = Some q /\ nd_ty q = SOLUTION).
  { intros j (q & Hq & Kq). apply A1. apply Hl. destruct (same_back h h1 j q S1 Hq) as (q0 & Hq0 & _ & K0). rewrite Kq in K0.
    splits; [apply (below_root h T (S j) j); [lia|now apply nth_lt in Hq0|eapply be_refl; eauto]|exists q0; auto|].
    intros [Sj|Fj]; [|revert Fj; now apply not_failed].
    inversion Sj as [? q' H1 H2|? q' H1 H2 H3|? q' k' H1 H2 H3]; subst; rewrite Hq0 in H1; injection H1 as <-; [apply (HN _ _ Hq0 H2)|congruence|].
    rewrite <- K0 in H3. destruct H3. }
  destruct (c35_unfinished_leaves h1 T1 0) as (l1 & El1 & Hl1); [lia|].
  assert (Z : l1 = []).
  { destruct l1 as [|j l1]; auto. exfalso. destruct (proj1 (Hl1 j) (or_introl eq_refl)) as (_ & Lj & Nj). apply Nj. left.
    destruct (HL j Lj) as (q & Hq & Ty). eapply so_done; eauto. }
  subst l1.
  assert (EF : finished h1 0 = Ok true) by (apply c35_all_done; auto).
  assert (ES : solved h1 0 = Ok true).
  { destruct (c35_solved h1 T1 0) as (b & Eb & Hb); [lia|]. rewrite Eb. f_equal. apply Hb. unfold finished in EF. rewrite Eb in EF. cbn [bind] in EF.
    destruct b; [now apply Hb|]. exfalso. destruct (c35_failed h1 T1 0) as (b' & Eb' & Hb'); [lia|]. rewrite EF in Eb'. injection Eb' as <-.
    apply (not_failed h1 0 W1). now apply Hb'. }
  assert (ER : Search.run fk rng nm d bf k (h, x') (Some 0) = Ok (h1, x')).
  { assert (EC : cycle fk rng nm d bf (h, x') 0 = Ok ((h1, x'), NSolved)).
    { unfold cycle. rewrite El. cbn [bind]. rewrite E1. cbn [bind]. rewrite El1. reflexivity. }
    destruct k as [|k]; cbn [Search.run]; rewrite EC; cbn [bind fst]; auto. rewrite EF. reflexivity. }
  rewrite ER. cbn [bind fst]. rewrite ES. cbn [bind]. destruct (back_ok h1 W1 L1 HL ES) as (h2 & r & Eb & Pr). rewrite Eb. cbn [bind].
  exists r. split; [auto|]. destruct fin; reflexivity.
Qed.
End Tree.
