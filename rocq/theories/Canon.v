(** * Canon: expressions in the shape the constructors give them, and how negation, reciprocal powers
    and the split into numerator and denominator act on them (for C75). *)
From Coq Require Import DecimalString.
From Verif Require Import Base Expr Kernel Atoms Frag.
From Coq Require Import Permutation Lqa Qpower.
Open Scope Z_scope.

(** ** Specification *)
Definition base (t : expr) : expr := fst (decon_pow t).
(** factors with different bases (as Python's == sees them) *)
Definition apart (t u : expr) : Prop := eeqb (base t) (base u) = false /\ eeqb (base u) (base t) = false.
Definition nonrats (l : list expr) : list expr := filter (fun t => negb (is_rat t)) l.
(** 1/x^2 and the like *)
Definition recip (t : expr) : bool := match t with EPow _ (ERat q) => qlt0 q | _ => false end.
(** -1 times a sum (never built: the constructor distributes the sign) *)
Definition neg_sum (t : expr) : bool := match t with EProd [ERat q; ESum _] => Qeq_bool q (-1) | _ => false end.

Section Canon.
(** [N]: allowed symbol names; [A]: allowed arguments of functions and of square roots; [B]: allowed
    exponents that are not numbers; [I z x]:
    the integer z to the power x is not rational *)
Context (N : string -> Prop) (A B : expr -> Prop) (I : Z -> Q -> Prop).
Inductive canon : expr -> Prop :=
| cn_rat q : canon (ERat q)
| cn_pi : canon EPi
| cn_e : canon EE
| cn_sym s : N s -> canon (ESym s)
| cn_sum ts : ts <> [] -> Forall (fun t => canon t /\ is_sum t = false /\ neg_sum t = false) ts -> canon (ESum ts)
| cn_prod ts : ts <> [] -> Forall (fun t => canon t /\ is_prod t = false) ts -> (List.length (rats ts) <= 1)%nat ->
    ForallOrdPairs apart (nonrats ts) -> canon (EProd ts)
| cn_pow b q : canon b -> is_pow b = false -> (is_rat b = false \/ exists z, b = ratz z /\ 1 < z /\ I z (Qabs q)) ->
    (qlt0 q = true -> is_prod b = false /\ is_sub b && qisint q = false) -> ((Qabs q == 1 # 2)%Q -> A b) -> canon (EPow b (ERat q))
| cn_powx b x : canon b -> canon x -> is_pow b = false -> is_rat x = false -> B x ->
    (forall p, b = ERat p -> (0 < p)%Q) -> canon (EPow b x)
| cn_trig f i : canon i -> A i -> canon (ETrig f i)
| cn_ln i : canon i -> A i -> canon (ELog i EE)
| cn_abs i : canon i -> canon (EAbs i).
End Canon.

(** ** Negating a product *)
Definition good (t : expr) : Prop := is_acc t = false /\ is_prod t = false /\ forall p, base t = ERat p -> (0 < p)%Q.
Definition okf (t : expr) : Prop := (exists a, t = ERat a /\ (a < 0)%Q) \/ good t.
Lemma eeqb_neg b a : (a < 0)%Q -> eeqb b (ERat a) = true -> b = ERat a.
Proof.
  intros Ha H. destruct b; try discriminate; cbn [eeqb] in H; apply qeqb_eq in H; subst; auto. exfalso. unfold q_pi, Qlt in Ha. simpl in Ha. lia.
Qed.
Lemma neg_eeqb b a : (a < 0)%Q -> eeqb (ERat a) b = true -> b = ERat a.
Proof.
  intros Ha H. destruct b; try discriminate; cbn [eeqb] in H; apply qeqb_eq in H; subst; auto; exfalso; unfold q_pi, q_e, Qlt in Ha; simpl in Ha; lia.
Qed.
Lemma good_not b a : (forall p, b = ERat p -> (0 < p)%Q) -> (a < 0)%Q -> eeqb b (ERat a) = false /\ eeqb (ERat a) b = false.
Proof.
  intros H Ha. split; apply Bool.not_true_is_false; intros E.
  - apply eeqb_neg in E; auto. apply H in E. lra.
  - apply neg_eeqb in E; auto. apply H in E. lra.
Qed.
Lemma py_eq_ok c a b r : py_eq c a b = Ok r -> r = eeqb a b.
Proof. unfold py_eq. destruct (strict c && coin a b); [discriminate|]. congruence. Qed.
Lemma split_good c k b x l h x' rest : (forall u, In u l -> eeqb (base u) b = false) -> split_base c k b x l = Ok (h, x', rest) -> h = false /\ rest = l.
Proof.
  revert h x' rest. induction l as [|u l IH]; intros h x' rest Hl H; cbn [split_base] in H.
  - injection H as <- _ <-. auto.
  - pose proof (Hl u (or_introl eq_refl)) as Hu. unfold base in Hu. destruct (decon_pow u) as [ob oe]. cbn [fst] in Hu.
    apply bind_ok in H as (e & He & H). apply py_eq_ok in He. rewrite Hu in He. subst e.
    apply bind_ok in H as ([[h1 x1] r1] & H1 & H). injection H as <- <- <-. apply IH in H1 as [-> ->]; auto. intros v Hv. apply Hl. now right.
Qed.
Lemma split_neg c k a l : (a < 0)%Q -> Forall okf l -> forall p h x' rest, qisint p = true -> (0 < p)%Q ->
  split_base c k (ERat a) (ERat p) l = Ok (h, x', rest) ->
  exists p', x' = ERat p' /\ qisint p' = true /\ (p <= p')%Q /\ (a ^ numer p' * ratprod rest == a ^ numer p * ratprod l)%Q /\
    nonrats rest = nonrats l /\ Forall okf rest /\ (h = false -> p' = p).
Proof.
  intros Ha. induction 1 as [|t l Ht Hl IH]; intros p h x' rest Hi Hp H; cbn [split_base] in H.
  - injection H as <- <- <-. exists p. repeat split; auto; try lra.
  - assert (Hb : (exists a', t = ERat a' /\ (a' < 0)%Q) \/ (eeqb (base t) (ERat a) = false /\ is_rat t = false /\ ratval t = 1%Q)).
    { destruct Ht as [L|(G1 & G2 & G3)]; [now left|right]. split; [now apply good_not|]. destruct t; try discriminate; auto. }
    destruct Hb as [(a' & -> & Ha')|(E & Hr & Hv)].
    + cbn [decon_pow] in H. apply bind_ok in H as (e & He & H). apply py_eq_ok in He. cbn [eeqb] in He. subst e.
      destruct (qeqb a' a) eqn:E.
      * apply qeqb_eq in E. subst a'. cbn [op_add bind] in H. unfold rat in H. apply bind_ok in H as ([[h1 x1] r1] & H1 & H). injection H as <- <- <-.
        assert (Ei : (Qred (p + 1) == inject_Z (numer p + 1))%Q).
        { rewrite Qred_correct, inject_Z_plus. rewrite (numer_int _ Hi) at 1. reflexivity. }
        assert (P1 : (0 < Qred (p + 1))%Q) by (rewrite Qred_correct; lra).
        assert (P2 : qisint (Qred (p + 1)) = true) by (rewrite (qisint_qeq _ _ Ei); apply RealLemmas.qisint_inject).
        apply IH in H1 as (p' & -> & I1 & I2 & I3 & I4 & I5 & I6); auto.
        exists p'. cbn [ratprod ratval nonrats filter is_rat negb]. repeat split; auto.
        -- rewrite Qred_correct in I2. lra.
        -- rewrite I3. rewrite (numer_qeq _ _ Ei), RealLemmas.numer_inject. rewrite Qpower_plus by lra. rewrite Qpower_1_r. ring.
        -- discriminate.
      * apply bind_ok in H as ([[h1 x1] r1] & H1 & H). injection H as <- <- <-. apply IH in H1 as (p' & -> & I1 & I2 & I3 & I4 & I5 & I6); auto.
        exists p'. cbn [ratprod ratval nonrats filter is_rat negb]. repeat split; auto.
        -- transitivity (a' * (a ^ numer p' * ratprod r1))%Q; [ring|]. rewrite I3. ring.
    + unfold base in E. destruct (decon_pow t) as [ob oe] eqn:Ed. cbn [fst] in E. apply bind_ok in H as (e & He & H). apply py_eq_ok in He. rewrite E in He. subst e.
      apply bind_ok in H as ([[h1 x1] r1] & H1 & H). injection H as <- <- <-. apply IH in H1 as (p' & -> & I1 & I2 & I3 & I4 & I5 & I6); auto.
      exists p'. cbn [ratprod nonrats filter]. rewrite Hr, Hv. cbn [negb]. repeat split; auto.
      * rewrite !Qmult_1_l. exact I3.
      * unfold nonrats in I4. now rewrite I4.
Qed.
Lemma nonrats_in t l : In t (nonrats l) <-> In t l /\ is_rat t = false.
Proof. unfold nonrats. rewrite filter_In. now destruct (is_rat t). Qed.
Lemma combine_neg c n f : forall l nc cs, combine_prod_go c (K c n) f l = Ok (nc, cs) -> Forall okf l -> ForallOrdPairs apart (nonrats l) ->
  nc = nonrats l /\ Forall (fun t => is_rat t = true) cs /\ (ratprod cs == ratprod l)%Q.
Proof.
  induction f as [|f IH]; intros [|t l] nc cs H Hl Hp; cbn [combine_prod_go] in H; try discriminate;
    try (injection H as <- <-; split; auto; split; [constructor|reflexivity]).
  inversion Hl as [|? ? Ht Hl']; subst. destruct Ht as [(a & -> & Ha)|(G1 & G2 & G3)].
  - cbn [decon_pow] in H. apply bind_ok in H as ([[h ex] rest] & H1 & H). apply (split_neg c (K c n) a l Ha Hl' 1 h ex rest eq_refl ltac:(lra)) in H1.
    destruct H1 as (p' & -> & I1 & I2 & I3 & I4 & I5 & I6). change (numer 1) with 1 in I3. rewrite Qpower_1_r in I3.
    assert (G : forall nc' cs', combine_prod_go c (K c n) f rest = Ok (nc', cs') -> nc' = nonrats l /\ Forall (fun t => is_rat t = true) cs' /\ (ratprod cs' == ratprod rest)%Q).
    { intros nc' cs' E. apply IH in E; auto; rewrite I4 in *; auto. }
    cbn [nonrats filter is_rat negb] in *. fold (nonrats l) in *.
    destruct h.
    + destruct (isq (ERat p') 0) eqn:E0; [apply isq_rat in E0; lra|]. destruct (isq (ERat p') 1) eqn:E1.
      * apply bind_ok in H as ([nc' cs'] & E & H). injection H as <- <-. apply G in E as (-> & F & V). split; auto. split; [constructor; auto|].
        apply isq_rat in E1. cbn [ratprod ratval]. rewrite V, <- I3, (numer_qeq _ _ E1). change (numer 1) with 1. rewrite Qpower_1_r. reflexivity.
      * apply bind_ok in H as (t' & Et & H). apply bind_ok in H as ([nc' cs'] & E & H). destruct n as [|n]; [discriminate|].
        destruct (k_pow_int c n a p' I1 ltac:(intros; lra)) as (r & Er & Hr). rewrite Er in Et. injection Et as <-. injection H as <- <-.
        apply G in E as (-> & F & V). split; auto. split; [constructor; auto|]. cbn [ratprod ratval]. now rewrite Hr, V, I3.
    + apply bind_ok in H as ([nc' cs'] & E & H). injection H as <- <-. apply G in E as (-> & F & V). split; auto. split; [constructor; auto|].
      cbn [ratprod ratval]. rewrite V. rewrite (I6 eq_refl) in I3. change (numer 1) with 1 in I3. rewrite Qpower_1_r in I3. exact I3.
  - assert (Hr : is_rat t = false) by (destruct t; auto; discriminate).
    cbn [nonrats filter] in *. rewrite Hr in *. cbn [negb] in *. fold (nonrats l) in *. inversion Hp as [|? ? Hh Hp']; subst.
    destruct (decon_pow t) as [b x] eqn:Ed. assert (Eb : b = base t) by (unfold base; now rewrite Ed). apply bind_ok in H as ([[h ex] rest] & H1 & H).
    apply split_good in H1 as [-> ->].
    + apply bind_ok in H as ([nc' cs'] & E & H). apply IH in E as (-> & F & V); auto. unfold add_term in H. rewrite G1 in H. injection H as <- <-.
      split; auto. split; auto. cbn [ratprod]. rewrite V. assert (Ev : ratval t = 1%Q) by (destruct t; auto; discriminate). rewrite Ev. ring.
    + intros u Hu. rewrite Eb. rewrite Forall_forall in Hl'. destruct (Hl' u Hu) as [(a & -> & Ha)|Gu].
      * cbn [base decon_pow fst]. apply good_not; auto.
      * rewrite Forall_forall in Hh. apply Hh. apply nonrats_in. split; auto. destruct Gu as (Gu & _). destruct u; auto; discriminate.
Qed.

(** the product of the factors [fs], in some order *)
Definition prod_of (fs : list expr) (e : expr) : Prop :=
  match fs with [] => e = ERat 1 | [t] => e = t | _ => exists s, e = EProd s /\ Permutation fs s end.
Lemma ratprod_nonrats l : (forall t, In t l -> is_rat t = false) -> (ratprod l == 1)%Q.
Proof.
  induction l as [|t l IH]; intros H; [reflexivity|]. cbn [ratprod]. rewrite IH by (intros; apply H; now right).
  assert (is_rat t = false) by (apply H; now left). destruct t; try discriminate; reflexivity.
Qed.
Theorem neg_prod c n q r l e : (q < 0)%Q -> Forall good r -> ForallOrdPairs apart r ->
  l = [ERat (-1); EProd (ERat q :: r)] \/ l = [EProd (ERat q :: r); ERat (-1)] -> k_prod (K c n) l = Ok e ->
  exists z fs, (z == - q)%Q /\ ((fs = r /\ (z == 1)%Q) \/ fs = r ++ [ERat z]) /\ prod_of fs e.
Proof.
  intros Hq Gr Ar Hl H. destruct n as [|n]; [discriminate|]. cbn [K build k_prod] in H. unfold prod_body in H.
  assert (Fr : flat_prod r = r).
  { clear -Gr. induction Gr as [|t r (_ & G & _) _ IH]; auto. unfold flat_prod in *. cbn [flat_map]. rewrite IH. now destruct t. }
  set (m := flat_prod l) in *.
  assert (Em : m = ERat (-1) :: ERat q :: r \/ m = ERat q :: r ++ [ERat (-1)]).
  { destruct Hl as [-> | ->]; [left|right]; unfold m, flat_prod; cbn [flat_map flat_prod1]; fold flat_prod1; change (flat_map flat_prod1 r) with (flat_prod r); rewrite Fr; cbn [app]; rewrite ?app_nil_r; reflexivity. }
  assert (Rr : forall t, In t r -> is_rat t = false).
  { intros t Ht. rewrite Forall_forall in Gr. destruct (Gr t Ht) as (G & _). destruct t; auto; discriminate. }
  assert (Nr : nonrats r = r).
  { clear -Rr. induction r as [|t r IH]; auto. cbn [nonrats filter]. rewrite (Rr t) by now left. cbn [negb]. f_equal. apply IH. intros; apply Rr. now right. }
  assert (Nm : nonrats m = r).
  { unfold nonrats in *. destruct Em as [-> | ->]; cbn [filter is_rat negb]; auto. rewrite filter_app, Nr. cbn [filter is_rat negb]. apply app_nil_r. }
  assert (Gf : Forall okf r) by (eapply Forall_impl; [|exact Gr]; intros t Ht; now right).
  assert (Om : Forall okf m).
  { destruct Em as [-> | ->]; repeat (constructor; [left; eexists; split; [reflexivity|lra]|]); auto. apply Forall_app. split; auto.
    repeat (constructor; [left; eexists; split; [reflexivity|lra]|]). constructor. }
  assert (Vm : (ratprod m == - q)%Q).
  { destruct Em as [-> | ->]; cbn [ratprod ratval]; rewrite ?ratprod_app, ratprod_nonrats by auto; cbn [ratprod ratval]; ring. }
  apply bind_ok in H as (nc & Hc & H). unfold combine_prod in Hc. apply bind_ok in Hc as ([nc0 cs] & Hc0 & Hc).
  apply (combine_neg c n) in Hc0; auto; [|rewrite Nm; auto]. destruct Hc0 as (-> & Fc & Vc). rewrite Nm in Hc. rewrite Vm in Vc.
  assert (X : exists z, (z == - q)%Q /\ ((nc = r /\ (z == 1)%Q) \/ nc = r ++ [ERat z])).
  { destruct cs as [|c0 cs]; [exists (- q)%Q; split; [reflexivity|]; left; injection Hc as <-; split; auto; rewrite <- Vc; reflexivity|].
    destruct (acc_prod_rats _ Fc) as (z & Ez & Vz). rewrite Ez in Hc. cbn [bind] in Hc. exists z. rewrite Vc in Vz. split; [exact Vz|].
    destruct (isq (ERat z) 0) eqn:E0; [apply isq_rat in E0; lra|]. destruct (isq (ERat z) 1) eqn:E1; injection Hc as <-; [left; split; auto; now apply isq_rat in E1|now right]. }
  destruct X as (z & Vz & X). exists z, nc. split; auto. split; auto.
  assert (P : forall t, In t nc -> isq t (-1) = false).
  { intros t Ht. destruct X as [[-> _]| ->].
    - apply Rr in Ht. destruct t; auto; discriminate.
    - apply in_app_or in Ht as [Ht|[<-|[]]]; [apply Rr in Ht; destruct t; auto; discriminate|]. apply isq_rat_f. lra. }
  clear X. destruct nc as [|t [|u nc]]; [now injection H as <-|now injection H as <-|]. cbn [prod_of].
  apply bind_ok in H as (s & Hs & H). apply Sound.sort_perm in Hs. exists s. split; auto.
  destruct s as [|t0 [|u0 [|v0 s]]]; try (now injection H as <-); destruct u0; try (now injection H as <-).
  rewrite P in H; [now injection H as <-|]. eapply Permutation_in; [symmetry; exact Hs|]. now left.
Qed.

(** ** Powers of a canonical base *)
Section Keep.
Context (c : cfg) (N : string -> Prop) (A B : expr -> Prop).
Definition surd (z : Z) (x : Q) : Prop := forall y, (y == x)%Q -> qisint y = false /\ fpow c z y = None.
Hypothesis H1 : forall x d, (0 < x)%Q -> fpow c 1 x = Some d -> d = 1.
Notation canon := (canon N A B surd).
Lemma canon_acc e : canon e -> is_acc e = is_rat e.
Proof. destruct 1; reflexivity. Qed.
Lemma pow_keep n b q y p : canon (EPow b (ERat q)) -> qlt0 q = true -> (y == - q)%Q -> ~ (q == -1)%Q ->
  k_pow (K c n) b (ERat y) = Ok p -> p = EPow b (ERat y).
Proof.
  intros Hc Hq Hy Hn H. destruct n as [|n]; [discriminate|]. cbn [K build k_pow] in H. unfold pow_body in H.
  apply qlt0_iff in Hq as Hq'. destruct (isq (ERat y) 0) eqn:E0; [apply isq_rat in E0; lra|].
  destruct (isq (ERat y) 1) eqn:E1; [apply isq_rat in E1; exfalso; apply Hn; lra|].
  inversion Hc as [| | | | | |? ? Cb Pb Rb Sb Ab|? ? ? ? ? X| | |]; subst; [|discriminate].
  destruct (Sb Hq) as [Nb Ib].
  destruct Rb as [Rb|(z & -> & Hz & Iz)].
  - destruct (isq b 1) eqn:E2; [destruct b; discriminate|]. rewrite (canon_acc b Cb), Rb, Nb in H. cbn [andb negb] in H.
    assert (T : pow_tail (K c n) b (ERat y) = Ok p) by (destruct b; try discriminate; exact H). unfold pow_tail in T.
    rewrite (qisint_qeq y (- q) Hy) in T. assert (Eq : qisint (- q) = qisint q).
    { clear. unfold qisint, denom. rewrite Qred_opp. now destruct (Qred q). }
    rewrite Eq, Ib in T. now injection T as <-.
  - assert (Ez : isq (ratz z) 1 = false) by (unfold ratz; apply isq_rat_f; intros E; unfold Qeq in E; simpl in E; lia). rewrite Ez in H. cbn [ratz is_acc andb] in H.
    apply bind_ok in H as (r & Hr & H). enough (r = None) by (subst r; now injection H as <-). clear H.
    unfold acc_pow, ratz in Hr. assert (Z0 : qis0 (inject_Z z) = false) by (apply Bool.not_true_is_false; intros E; apply qis0_iff in E; unfold Qeq in E; simpl in E; lia).
    rewrite Z0, RealLemmas.numer_inject in Hr.
    assert (Dz : denom (inject_Z z) = 1) by (pose proof (RealLemmas.qisint_inject z) as Q; unfold qisint in Q; now apply Z.eqb_eq in Q). rewrite Dz in Hr.
    assert (Ey : (Qabs y == Qabs q)%Q) by (rewrite Hy; apply Qabs_opp). destruct (Iz _ Ey) as [J1 J2].
    unfold int_pow in Hr. rewrite J1, J2 in Hr. replace (z <? 0) with false in Hr by lia. change (1 <? 0) with false in Hr. cbv iota in Hr.
    replace (z =? 1) with false in Hr by lia. change (1 =? 1) with true in Hr. cbn [negb andb orb] in Hr.
    assert (Lz : qlt0 (inject_Z z) = false) by (apply qlt0_f; unfold Qle; simpl; lia). rewrite Lz, andb_false_r in Hr.
    destruct (fpow c 1 (Qabs y)) as [d|] eqn:Ed; [apply H1 in Ed; [subst d|rewrite Ey, (Qabs_neg q); lra]|]; now injection Hr as <-.
Qed.

(** ** Numerator and denominator *)
Inductive nd : list expr -> list expr -> list expr -> Prop :=
| nd_nil : nd [] [] []
| nd_rat q r n d : nd r n d -> nd (ERat q :: r) (if numer q =? 1 then n else ratz (numer q) :: n) (if denom q =? 1 then d else ratz (denom q) :: d)
| nd_keep t r n d : is_rat t = false -> recip t = false -> nd r n d -> nd (t :: r) (t :: n) d
| nd_inv b q r n d : (q == -1)%Q -> nd r n d -> nd (EPow b (ERat q) :: r) n (b :: d)
| nd_neg b q y r n d : qlt0 q = true -> ~ (q == -1)%Q -> (y == - q)%Q -> nd r n d -> nd (EPow b (ERat q) :: r) n (EPow b (ERat y) :: d).
Lemma numden_nd m ts : Forall (fun t => canon t /\ is_prod t = false) ts -> forall n d, numden_go (K c m) ts = Ok (n, d) -> nd ts n d.
Proof.
  induction 1 as [|t ts [Ct Pt] Ft IH]; intros n d H; [injection H as <- <-; constructor|].
  assert (Keep : is_rat t = false -> recip t = false -> ('(n0, d0) <- numden_go (K c m) ts;; Ok (t :: n0, d0)) = Ok (n, d) -> nd (t :: ts) n d).
  { intros R1 R2 E. apply bind_ok in E as ([n0 d0] & E0 & E). injection E as <- <-. apply nd_keep; auto. }
  destruct Ct as [q| | |s Hs|us Hu Fu|us Hu Fu Ru Au|b q Cb Pb Rb Sb Ab|b x Cb Cx Pb Rx Cx' Px|f i Ci Ai|i Ci Ai|i Ci]; try (apply Keep; auto; fail).
  - cbn [numden_go] in H. apply bind_ok in H as ([n0 d0] & E0 & H). injection H as <- <-. apply nd_rat. auto.
  - cbn [numden_go decon_pow] in H. apply bind_ok in H as ([n0 d0] & E0 & H). destruct (qlt0 q) eqn:Eq.
    + destruct (Qeq_bool q (-1)) eqn:E1.
      * injection H as <- <-. apply nd_inv; auto. now apply Qeq_bool_iff.
      * apply bind_ok in H as (p & Ep & H). injection H as <- <-. assert (Q1 : ~ (q == -1)%Q) by (intros E; apply Qeq_bool_iff in E; congruence).
        assert (Ey : (Qred (- q) == - q)%Q) by apply Qred_correct.
        unfold rat in Ep. apply (pow_keep m b q (Qred (- q)) p) in Ep; [|apply cn_pow; auto|auto|auto|auto]. subst p. apply nd_neg; auto.
    + injection H as <- <-. apply nd_keep; auto.
  - apply Keep; [reflexivity| |]; destruct Cx; try discriminate; solve [reflexivity|exact H].
Qed.
End Keep.
