(** * PolyQ: the polynomial and matrix routines on rational coefficients, in the plain code.

    On rational coefficients the arithmetic operators of the library never reach the constructors, so
    these results need no monitor: they are about every run of the plain code. *)
From Verif Require Import Poly.
From Coq Require Import Lqa.
Open Scope Q_scope.

Lemma rat_eq q : exists p, rat q = ERat p /\ p == q.
Proof. exists (Qred q). split; [reflexivity|apply Qred_correct]. Qed.

(** value at [x] of the polynomial with rational coefficients [l], constant term first *)
Definition qpoly (l : list Q) (x : Q) : Q := fold_right (fun a r => a + x * r) 0 l.
Notation lift := (map ERat).

Fixpoint qpn (x : Q) (n : nat) : Q := match n with O => 1 | S k => x * qpn x k end.
Lemma qpoly_app l m x : qpoly (l ++ m) x == qpoly l x + qpn x (List.length l) * qpoly m x.
Proof.
  induction l as [|a l IH]; cbn [app qpoly fold_right List.length].
  - change (qpoly m x == 0 + 1 * qpoly m x). ring.
  - change (fold_right (fun a r => a + x * r) 0 (l ++ m)) with (qpoly (l ++ m) x).
    change (fold_right (fun a r => a + x * r) 0 l) with (qpoly l x). rewrite IH.
    cbn [qpn]. ring.
Qed.
Lemma qpoly_zeros d x : qpoly (repeat 0 d) x == 0.
Proof. induction d as [|d IH]; cbn; [reflexivity|]. fold (qpoly (repeat 0 d) x). rewrite IH. ring. Qed.

Section Plain.
Context (fk : fkern) (HP : k_strict fk = false).

(** rid_ending_zeros on rationals *)
Lemma rid_lift l : exists l', rid_zeros (lift l) = lift l' /\ (List.length l' <= List.length l)%nat /\
  (forall x, qpoly l' x == qpoly l x) /\
  (forall a, l <> [] -> last l a == 0 -> (List.length l' < List.length l)%nat).
Proof.
  induction l as [|a l (l' & E & L & V & SS)].
  - exists []. repeat split; auto; try reflexivity. congruence.
  - cbn [map rid_zeros]. rewrite E. destruct l' as [|b r]; cbn [map].
    + cbn [isq]. destruct (Qeq_bool a 0) eqn:Z.
      * apply Qeq_bool_eq in Z. exists []. repeat split; auto; try (simpl; lia).
        intros x. cbn. fold (qpoly l x). rewrite <- V, Z. cbn. ring.
      * exists [a]. repeat split; try (simpl; lia).
        -- intros x. cbn. fold (qpoly l x). rewrite <- V. cbn. ring.
        -- intros d _ H. destruct l as [|c l]; [|simpl; lia]. simpl in H. apply Qeq_bool_iff in H. congruence.
    + exists (a :: b :: r). repeat split; try (simpl in *; lia).
      * intros x. cbn [qpoly fold_right]. fold (qpoly l x). rewrite <- V. reflexivity.
      * intros d _ H. destruct l as [|c l]; [simpl in L; lia|]. cbn [List.length] in *.
        assert (S' : (S (List.length r) < S (List.length l))%nat) by (apply (SS d); [discriminate|exact H]). lia.
Qed.

Lemma lastM_lift l d : l <> [] -> lastM (lift l) = Ok (ERat (last l d)).
Proof.
  induction l as [|a l IH]; [congruence|]. intros _. destruct l as [|b l]; [reflexivity|].
  change (lastM (lift (b :: l)) = Ok (ERat (last (b :: l) d))). apply IH. discriminate.
Qed.

Lemma scale_lift q l : exists m, mapM (fun t => op_mul fk t (ERat q)) (lift l) = Ok (lift m) /\
  List.length m = List.length l /\ (forall x, qpoly m x == q * qpoly l x) /\
  (forall d, l <> [] -> last m d == q * last l d).
Proof.
  induction l as [|a l (m & E & L & V & T)].
  - exists []. repeat split; auto; [intros x; cbn; ring|congruence].
  - destruct (rat_eq (a * q)) as (p & Ep & Hp). exists (p :: m). cbn [map mapM op_mul]. rewrite Ep. cbn [bind]. rewrite E. cbn [bind map].
    repeat split; [simpl; lia| |].
    + intros x. cbn [qpoly fold_right]. fold (qpoly m x) (qpoly l x). rewrite V, Hp. ring.
    + intros d _. destruct l as [|b l]; destruct m as [|c m]; cbn [List.length] in L; try lia.
      * cbn. rewrite Hp. ring.
      * change (last (c :: m) d == q * last (b :: l) d). apply T. discriminate.
Qed.

Lemma sub_lift l : forall m, List.length l = List.length m -> exists r, sub_arr fk (lift l) (lift m) = Ok (lift r) /\
  List.length r = List.length l /\ (forall x, qpoly r x == qpoly l x - qpoly m x) /\
  (forall d, l <> [] -> last r d == last l d - last m d).
Proof.
  induction l as [|a l IH]; intros [|b m] E; cbn [List.length] in E; try lia.
  - exists []. split; [reflexivity|]. split; [reflexivity|]. split; [intros x; cbn; ring|congruence].
  - destruct (IH m ltac:(lia)) as (r & Er & L & V & T). destruct (rat_eq (a - b)) as (p & Ep & Hp). exists (p :: r).
    cbn [map sub_arr op_sub]. rewrite Ep. cbn [bind]. rewrite Er. cbn [bind map]. split; [reflexivity|]. split; [simpl; lia|]. split.
    + intros x. cbn [qpoly fold_right]. fold (qpoly r x) (qpoly l x) (qpoly m x). rewrite V, Hp. ring.
    + intros d _. destruct l as [|c l]; destruct m as [|e m]; destruct r as [|f r]; cbn [List.length] in *; try lia.
      * exact Hp.
      * change (last (f :: r) d == last (c :: l) d - last (e :: m) d). apply T. discriminate.
Qed.

Lemma lift_repeat d : repeat (ERat 0) d = lift (repeat 0 d).
Proof. induction d; cbn; congruence. Qed.
Lemma lift_app l m : lift l ++ lift m = lift (l ++ m).
Proof. now rewrite map_app. Qed.
Lemma last_app (l m : list Q) d : m <> [] -> last (l ++ m) d = last m d.
Proof.
  intros H. induction l as [|a l IH]; auto. cbn [app last]. destruct (l ++ m) eqn:E; auto.
  apply app_eq_nil in E as [_ ->]. congruence.
Qed.

Fixpoint qset (i : nat) (x : Q) (l : list Q) : list Q :=
  match l, i with [], _ => [] | _ :: r, O => x :: r | a :: r, S i' => a :: qset i' x r end.
Lemma set_lift i x l : set_nth i (ERat x) (lift l) = lift (qset i x l).
Proof. revert i; induction l as [|a l IH]; intros [|i]; cbn; auto. now rewrite IH. Qed.
Lemma qset_len i x l : List.length (qset i x l) = List.length l.
Proof. revert i; induction l as [|a l IH]; intros [|i]; cbn; auto. Qed.
Lemma qset_other i j x l : i <> j -> nth j (qset i x l) 0 = nth j l 0.
Proof. revert i j; induction l as [|a l IH]; intros [|i] [|j] H; cbn; auto; try congruence. Qed.
Lemma qset_val i x l y : (i < List.length l)%nat -> nth i l 0 == 0 ->
  qpoly (qset i x l) y == qpoly l y + x * qpn y i.
Proof.
  revert i; induction l as [|a l IH]; intros [|i] H Z; cbn [List.length] in H; try lia.
  - cbn in *. rewrite Z. ring.
  - cbn [qset qpoly fold_right nth] in *. fold (qpoly (qset i x l) y) (qpoly l y). rewrite IH by (auto; lia).
    cbn [qpn]. ring.
Qed.

Lemma pd_loop_lift den (Hd : den <> []) (Hl : ~ last den 0 == 0) n : forall num quot,
  (List.length num < n)%nat ->
  (List.length num - List.length den < List.length quot)%nat ->
  (forall i, (List.length den <= List.length num)%nat -> (i <= List.length num - List.length den)%nat -> nth i quot 0 == 0) ->
  exists rem q, pd_loop fk n (lift num) (lift den) (lift quot) = Ok (lift rem, lift q) /\
    (List.length rem < List.length den)%nat /\ List.length q = List.length quot /\
    forall x, qpoly num x + qpoly quot x * qpoly den x == qpoly rem x + qpoly q x * qpoly den x.
Proof.
  assert (LD : (0 < List.length den)%nat) by (destruct den; [congruence|simpl; lia]).
  induction n as [|n IH]; intros num quot Hn Hq Hz; [lia|]. cbn [pd_loop]. rewrite !map_length.
  destruct (Nat.ltb _ _) eqn:El.
  - apply Nat.ltb_lt in El. exists num, quot. split; [reflexivity|]. split; [exact El|]. split; [reflexivity|]. intros x. reflexivity.
  - apply Nat.ltb_ge in El. set (d := (List.length num - List.length den)%nat) in *.
    assert (Nn : num <> []) by (intros ->; simpl in El; lia).
    rewrite (lastM_lift num 0 Nn), (lastM_lift den 0 Hd). cbn [bind op_div].
    destruct (qis0 (last den 0)) eqn:Q0; [apply Qeq_bool_eq in Q0; contradiction|].
    destruct (rat_eq (last num 0 / last den 0)) as (p & Ep & Hp). rewrite Ep. cbn [bind].
    rewrite HP. cbn [negb orb guard].
    destruct (scale_lift p den) as (m & Em & Lm & Vm & Tm). rewrite Em. cbn [bind].
    rewrite lift_repeat, lift_app.
    destruct (sub_lift num (repeat 0 d ++ m)) as (r & Er & Lr & Vr & Tr).
    { rewrite app_length, repeat_length, Lm. lia. }
    rewrite Er. cbn [bind]. destruct (rid_lift r) as (r' & Er' & Lr' & Vr' & Sr). rewrite Er', set_lift.
    assert (Z : last r 0 == 0).
    { assert (Nm : m <> []) by (intros ->; simpl in Lm; lia).
      rewrite (Tr 0 Nn), (last_app _ m 0 Nm), (Tm 0 Hd), Hp. field. exact Hl. }
    assert (S' : (List.length r' < List.length r)%nat).
    { apply (Sr 0); auto. destruct r; [|discriminate]. destruct num; [congruence|simpl in Lr; lia]. }
    destruct (IH r' (qset d p quot)) as (rem & q & E & A & B & C).
    + lia.
    + rewrite qset_len. lia.
    + intros i K Hi. rewrite qset_other by (unfold d; lia). apply Hz; lia.
    + exists rem, q. rewrite qset_len in B. split; [exact E|]. split; [exact A|]. split; [exact B|]. intros x. rewrite <- C, Vr', Vr, qset_val by (auto; apply Hz; lia).
      rewrite qpoly_app, qpoly_zeros, repeat_length, Vm. ring.
Qed.

(** Long division of rational polynomials with the loop of PolynomialDivision.forward. *)
Theorem division_lift num den n : den <> [] -> ~ last den 0 == 0 -> (List.length num < n)%nat ->
  exists rem quot,
    pd_loop fk n (lift num) (lift den) (repeat (ERat 0) (List.length num - List.length den + 1)) = Ok (lift rem, lift quot) /\
    (List.length rem < List.length den)%nat /\
    forall x, qpoly num x == qpoly quot x * qpoly den x + qpoly rem x.
Proof.
  intros Hd Hl Hn. rewrite lift_repeat.
  destruct (pd_loop_lift den Hd Hl n num (repeat 0 (List.length num - List.length den + 1))) as (rem & q & E & A & _ & C).
  - exact Hn.
  - rewrite repeat_length. lia.
  - intros i _ _. rewrite nth_repeat. reflexivity.
  - exists rem, q. split; [exact E|]. split; [exact A|]. intros x. specialize (C x). rewrite qpoly_zeros in C.
    rewrite Qplus_comm, <- C. ring.
Qed.

(** linalg.invert on a rational matrix *)
Theorem invert_lift a b c d :
  (a * d - b * c == 0 /\ invert fk [lift [a; b]; lift [c; d]] = Ok None) \/
  (~ a * d - b * c == 0 /\ exists e f g h,
     invert fk [lift [a; b]; lift [c; d]] = Ok (Some [lift [e; f]; lift [g; h]]) /\
     e * a + f * c == 1 /\ e * b + f * d == 0 /\ g * a + h * c == 0 /\ g * b + h * d == 1 /\
     a * e + b * g == 1 /\ a * f + b * h == 0 /\ c * e + d * g == 0 /\ c * f + d * h == 1).
Proof.
  cbn [map invert op_mul op_sub].
  destruct (rat_eq (a * d)) as (p & -> & Hp). destruct (rat_eq (b * c)) as (q & -> & Hq). cbn [bind op_sub].
  destruct (rat_eq (p - q)) as (D & -> & HD). cbn [bind isq]. rewrite Hp, Hq in HD.
  destruct (Qeq_bool D 0) eqn:Z.
  - left. apply Qeq_bool_eq in Z. split; [now rewrite <- HD|reflexivity].
  - right. assert (N : ~ a * d - b * c == 0).
    { rewrite <- HD. intros E. apply Qeq_bool_iff in E. congruence. }
    split; auto. cbn [op_div op_neg]. unfold qis0. rewrite Z. cbn [bind].
    destruct (rat_eq (d / D)) as (e & -> & He). cbn [bind].
    destruct (rat_eq (- b)) as (nb & -> & Hnb). cbn [bind op_div]. unfold qis0. rewrite Z. cbn [bind].
    destruct (rat_eq (nb / D)) as (f & -> & Hf). cbn [bind].
    destruct (rat_eq (- c)) as (nc & -> & Hnc). cbn [bind op_div]. unfold qis0. rewrite Z. cbn [bind].
    destruct (rat_eq (nc / D)) as (g & -> & Hg). cbn [bind].
    destruct (rat_eq (a / D)) as (h & -> & Hh). cbn [bind].
    exists e, f, g, h. split; [reflexivity|].
    rewrite He, Hf, Hg, Hh, Hnb, Hnc, HD.
    split; [field; exact N|]. split; [field; exact N|]. split; [field; exact N|]. split; [field; exact N|].
    split; [field; exact N|]. split; [field; exact N|]. split; [field; exact N|]. field; exact N.
Qed.
End Plain.

(** rid_ending_zeros removes exactly the trailing zeros *)
Theorem rid_zeros_split l : exists zs, l = rid_zeros l ++ zs /\ Forall (fun z => isq z 0 = true) zs /\
  forall z, lastM (rid_zeros l) = Ok z -> isq z 0 = false.
Proof.
  induction l as [|a l (zs & E & Z & N)]; [exists []; repeat split; auto; discriminate|].
  cbn [rid_zeros]. destruct (rid_zeros l) as [|b r] eqn:R.
  - destruct (isq a 0) eqn:A.
    + exists (a :: zs). cbn in E. subst zs. split; [reflexivity|]. split; [constructor; auto|discriminate].
    + exists zs. cbn in E. subst zs. split; [reflexivity|]. split; [auto|]. cbn. intros z H. injection H as <-. exact A.
  - exists zs. split; [cbn [app]; now rewrite E at 1|]. split; auto.
Qed.
