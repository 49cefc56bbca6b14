(** * Atoms: the constructors invent nothing.

    For every property [P] of trees that is decided node by node and holds of all rationals and
    infinities, every constructor of the library returns a tree with [P] when its operands have
    [P].  Instances: no new symbols, no new pi / e. *)
From Verif Require Export FMono Sound.
Open Scope Z_scope.

Record Her (P : expr -> Prop) : Prop := {
  h_rat : forall q, P (ERat q);
  h_inf : P EInf;
  h_ninf : P ENegInf;
  h_sum : forall ts, P (ESum ts) <-> Forall P ts;
  h_prod : forall ts, P (EProd ts) <-> Forall P ts;
  h_pow : forall b x, P (EPow b x) -> P b /\ P x;
  h_mkpow : forall b x, is_pow b = false -> P b -> P x -> P (EPow b x);
  h_log : forall i b, P (ELog i b) -> P i /\ P b;
  h_trig : forall f i, P (ETrig f i) -> P i;
  h_abs : forall i, P (EAbs i) <-> P i }.
Lemma mkHer (P : expr -> Prop) :
  (forall q, P (ERat q)) -> P EInf -> P ENegInf ->
  (forall ts, P (ESum ts) <-> Forall P ts) -> (forall ts, P (EProd ts) <-> Forall P ts) ->
  (forall b x, P (EPow b x) <-> P b /\ P x) -> (forall i b, P (ELog i b) -> P i /\ P b) ->
  (forall f i, P (ETrig f i) -> P i) -> (forall i, P (EAbs i) <-> P i) -> Her P.
Proof. intros H1 H2 H3 H4 H5 H6 H7 H8 H9. constructor; auto; intros b x; apply H6 || intros; apply H6; auto. Qed.

(** [rall AC Q r]: a result, if there is one, satisfies [Q]; and unless [AC] the run does not stop
    at a coincidence. *)
Definition rall (AC : Prop) {A} (Q : A -> Prop) (r : res A) : Prop :=
  match r with Ok a => Q a | Stop Coincidence => AC | _ => True end.

Section Rall.
Context (AC : Prop).
Notation rall := (rall AC).
Lemma rall_ok {A} (Q : A -> Prop) a : Q a -> rall Q (Ok a).
Proof. auto. Qed.
Lemma rall_raise {A} (Q : A -> Prop) x : rall Q (Raise x).
Proof. exact I. Qed.
Lemma rall_fuel {A} (Q : A -> Prop) : rall Q (Stop OutOfFuel).
Proof. exact I. Qed.
Lemma rall_unm {A} (Q : A -> Prop) : rall Q (Stop Unmodelled).
Proof. exact I. Qed.
Lemma rall_bind {A B} (Q1 : A -> Prop) (Q : B -> Prop) r f :
  rall Q1 r -> (forall a, Q1 a -> rall Q (f a)) -> rall Q (bind r f).
Proof. intros H1 H2. destruct r as [a| |[]]; simpl in *; auto. Qed.
Lemma rall_impl {A} (Q1 Q : A -> Prop) r : rall Q1 r -> (forall a, Q1 a -> Q a) -> rall Q r.
Proof. intros H1 H2. destruct r as [a| |[]]; simpl in *; auto. Qed.
Lemma rall_guard {A} (Q : A -> Prop) b r : rall Q r -> rall Q (guard b r).
Proof. destruct b; simpl; auto. Qed.
Lemma rall_mapM {A B} (P : A -> Prop) (Q : B -> Prop) (f : A -> res B) l :
  Forall P l -> (forall a, P a -> rall Q (f a)) -> rall (Forall Q) (mapM f l).
Proof.
  intros H Hf. induction H as [|a l Ha _ IH]; cbn [mapM]; [apply rall_ok; auto|].
  eapply rall_bind; [apply Hf; auto|]. intros b Hb. eapply rall_bind; [exact IH|].
  intros bs Hbs. apply rall_ok. auto.
Qed.

(** Structural functions meet no coincidence. *)
Lemma prod_skip_nc ts : rall (fun _ => True) (prod_skip ts).
Proof. destruct ts as [|t [|u l]]; simpl; auto; destruct t; exact I. Qed.
Lemma rcf_nc e : rall (fun _ => True) (rcf e).
Proof.
  unfold rcf. destruct e; try exact I. eapply rall_bind; [apply prod_skip_nc|]. intros s _.
  eapply rall_bind; [apply prod_skip_nc|]. intros; exact I.
Qed.
Lemma const_power_nc e : rall (fun _ => True) (const_power e).
Proof. unfold const_power. eapply rall_bind; [apply rcf_nc|]. intros [s c] _. destruct s; try exact I. destruct s2; exact I. Qed.
Lemma strictly_positive_nc e : rall (fun _ => True) (strictly_positive e).
Proof.
  induction e as [q| | | | |s| |ts IH|ts IH|b x IHb IHx|i b IHi IHb|f i IHi|i IHi] using expr_ind';
    cbn [strictly_positive]; auto; try exact I.
  - induction IH as [|t l Ht _ IHl]; [exact I|]. eapply rall_bind; [exact Ht|]. intros [] _; [exact IHl|exact I].
  - induction IH as [|t l Ht _ IHl]; [exact I|]. eapply rall_bind; [exact Ht|]. intros [] _; [exact IHl|exact I].
Qed.
Lemma nwf_nc e : rall (fun _ => True) (nwf e).
Proof.
  induction e as [q| | | | |s| |ts IH|ts IH|b x IHb IHx|i b IHi IHb|f i IHi|i IHi] using expr_ind';
    try exact I; cbn [nwf];
    try (match goal with |- rall _ (if ?b then _ else _) => destruct b; [|exact I] end).
  - eapply (rall_bind (fun _ => True)); [|intros; exact I].
    induction IH as [|t l Ht _ IHl]; [exact I|]. eapply rall_bind; [exact Ht|]. intros n _.
    eapply rall_bind; [exact IHl|]. intros; exact I.
  - eapply rall_bind; [apply rcf_nc|]. intros r0 _. eapply (rall_bind (fun _ => True)).
    + clear r0. induction IH as [|t l Ht _ IHl]; [exact I|]. destruct (has_symany t); [|exact IHl].
      eapply rall_bind; [exact Ht|]. intros n _.
      eapply rall_bind; [exact IHl|]. intros; exact I.
    + intros [|n [|m ns]] _; exact I.
  - eapply rall_bind; [exact IHb|]. intros n _. eapply rall_bind; [exact IHx|]. intros; exact I.
  - eapply rall_bind; [exact IHi|]. intros n _. eapply rall_bind; [exact IHb|]. intros; exact I.
  - eapply rall_bind; [exact IHi|]. intros; exact I.
  - eapply rall_bind; [exact IHi|]. intros; exact I.
Qed.
End Rall.
Arguments rall : simpl never.

Section Her.
Context (AC : Prop) (P : expr -> Prop) (HP : Her P).
Let Pl := Forall P.
Notation rall := (rall AC).

Lemma h_ratq q : P (rat q). Proof. apply HP. Qed.
Lemma h_ratz z : P (ratz z). Proof. apply HP. Qed.

Lemma her_acc e : is_acc e = true -> P e.
Proof. destruct e; try discriminate; intros _; apply HP. Qed.

Record KHer (k : kern) : Prop := {
  kh_sum : forall ts, Pl ts -> rall P (k_sum k ts);
  kh_prod : forall ts, Pl ts -> rall P (k_prod k ts);
  kh_pow : forall b x, P b -> P x -> rall P (k_pow k b x);
  kh_abs : forall i, P i -> rall P (k_abs k i);
  kh_repr : forall i, P i -> rall (fun _ => True) (k_repr k i) }.

Lemma prod_skip_her ts : Pl ts -> rall P (prod_skip ts).
Proof.
  intros H. destruct ts as [|t [|u l]]; simpl.
  - apply rall_ok, HP.
  - inversion H; subst. destruct t; try apply rall_ok; auto. apply rall_raise.
  - destruct t; apply rall_ok; apply (h_prod _ HP); exact H.
Qed.

Lemma flat_sum1_her e : P e -> Pl (flat_sum1 e).
Proof.
  induction e as [q| | | | |s| |ts IH|ts IH|b x IHb IHx|i b IHi IHb|f i IHi|i IHi] using expr_ind'; intros H;
    try (repeat constructor; exact H).
  apply (h_sum _ HP) in H. cbn [flat_sum1]. apply Forall_flat_map.
  rewrite Forall_forall in *. intros t Ht. apply IH; auto.
Qed.
Lemma flat_prod1_her e : P e -> Pl (flat_prod1 e).
Proof.
  induction e as [q| | | | |s| |ts IH|ts IH|b x IHb IHx|i b IHi IHb|f i IHi|i IHi] using expr_ind'; intros H;
    try (repeat constructor; exact H).
  apply (h_prod _ HP) in H. cbn [flat_prod1]. apply Forall_flat_map.
  rewrite Forall_forall in *. intros t Ht. apply IH; auto.
Qed.
Lemma flat_sum_her ts : Pl ts -> Pl (flat_sum ts).
Proof. intros H. apply Forall_flat_map. eapply Forall_impl; [|exact H]. apply flat_sum1_her. Qed.
Lemma flat_prod_her ts : Pl ts -> Pl (flat_prod ts).
Proof. intros H. apply Forall_flat_map. eapply Forall_impl; [|exact H]. apply flat_prod1_her. Qed.

Lemma decon_prod_her e : P e -> Pl (fst (decon_prod e)) /\ Pl (snd (decon_prod e)).
Proof.
  intros H. assert (D : Pl [ERat 1] /\ Pl [e]) by (split; repeat constructor; auto; apply HP).
  destruct e; try exact D. apply (h_prod _ HP) in H. cbn [decon_prod fst snd]. split.
  - destruct (filter is_acc ts) eqn:E; [repeat constructor; apply HP|]. rewrite <- E. now apply Forall_filter.
  - now apply Forall_filter.
Qed.
Lemma decon_pow_her e : P e -> P (fst (decon_pow e)) /\ P (snd (decon_pow e)).
Proof.
  intros H. assert (D : P e /\ P (ERat 1)) by (split; auto; apply HP).
  destruct e; try exact D. now apply (h_pow _ HP) in H.
Qed.

Lemma val_add_her a b : rall P (val_add a b).
Proof. destruct a, b; simpl; try first [apply rall_fuel|apply rall_unm]; apply rall_ok, HP. Qed.
Lemma val_mul_her a b : rall P (val_mul a b).
Proof.
  unfold val_mul. destruct a, b; try (apply rall_ok, HP);
    destruct (_ * _); try first [apply rall_fuel|apply rall_unm]; apply rall_ok, HP.
Qed.
Lemma fold_her (f : expr -> expr -> res expr) cs : (forall a b, rall P (f a b)) -> forall a, P a -> rall P (foldM f cs a).
Proof.
  intros Hf. induction cs as [|t cs IH]; intros a Ha; cbn [foldM]; [now apply rall_ok|].
  eapply rall_bind; [apply Hf|]. intros b Hb. now apply IH.
Qed.
Lemma acc_sum_her cs : Pl cs -> rall P (acc_sum cs).
Proof.
  intros H. unfold acc_sum. destruct cs as [|t [|u cs]]; try (apply fold_her; [apply val_add_her|apply HP]).
  inversion H; now apply rall_ok.
Qed.
Lemma acc_prod_her cs : Pl cs -> rall P (acc_prod cs).
Proof.
  intros H. unfold acc_prod. destruct cs as [|t [|u cs]]; try (apply fold_her; [apply val_mul_her|apply HP]).
  inversion H; now apply rall_ok.
Qed.

Section Step.
Context (c : cfg) (k : kern) (HK : KHer k).
Context (HC : forall a b, strict c = true -> P a -> P b -> coin a b = true -> AC).

Lemma py_eq_her a b : P a -> P b -> rall (fun _ => True) (py_eq c a b).
Proof.
  intros Ha Hb. unfold py_eq. destruct (strict c) eqn:S; [|exact I]. simpl. destruct (coin a b) eqn:E; [|exact I].
  exact (HC _ _ eq_refl Ha Hb E).
Qed.
Lemma py_eql_her l m : Pl l -> Pl m -> rall (fun _ => True) (py_eql c l m).
Proof.
  intros Ha Hb. unfold py_eql. destruct (strict c) eqn:S; [|exact I]. simpl. destruct (coinl l m) eqn:E; [|exact I].
  change AC. revert m Hb E. induction Ha as [|x l Hx _ IH]; intros m Hm E; [discriminate|].
  destruct m as [|y m]; [discriminate|]. inversion Hm; subst. cbn [coinl] in E.
  apply orb_prop in E as [E|E]; [exact (HC x y eq_refl Hx ltac:(assumption) E)|eapply IH; eauto].
Qed.

Lemma op_add_her a b : P a -> P b -> rall P (op_add k a b).
Proof.
  intros Ha Hb. unfold op_add. destruct a, b; try (apply rall_ok, HP); apply (kh_sum _ HK); repeat constructor; auto.
Qed.
Lemma op_mul_her a b : P a -> P b -> rall P (op_mul k a b).
Proof.
  intros Ha Hb. unfold op_mul. destruct a, b; try (apply rall_ok, HP); apply (kh_prod _ HK); repeat constructor; auto.
Qed.
Lemma op_sub_her a b : P a -> P b -> rall P (op_sub k a b).
Proof.
  intros Ha Hb. assert (D : rall P (m <- op_mul k (ERat (-1)) b;; op_add k a m)).
  { eapply rall_bind; [apply op_mul_her; auto; apply HP|]. intros m Hm. now apply op_add_her. }
  unfold op_sub. destruct a, b; try exact D. apply rall_ok, HP.
Qed.
Lemma op_div_her a b : P a -> P b -> rall P (op_div k a b).
Proof.
  intros Ha Hb. assert (D : rall P (i <- k_pow k b (ERat (-1));; k_prod k [a; i])).
  { eapply rall_bind; [apply (kh_pow _ HK); auto; apply HP|]. intros m Hm. apply (kh_prod _ HK); repeat constructor; auto. }
  unfold op_div. destruct a, b; try exact D. destruct (qis0 q0); [exact D|]. apply rall_ok, HP.
Qed.
Lemma op_pow_her a b : P a -> P b -> rall P (op_pow k a b).
Proof.
  intros Ha Hb. assert (D : rall P (k_pow k a b)) by now apply (kh_pow _ HK).
  unfold op_pow. destruct a, b; try exact D. destruct (_ && _); [apply rall_raise|].
  destruct (qisint _); [apply rall_ok, HP|exact D].
Qed.
Lemma op_neg_her e : P e -> rall P (op_neg k e).
Proof.
  assert (D : forall e, P e -> rall P (op_mul k (ERat (-1)) e)) by (intros; apply op_mul_her; auto; apply HP).
  induction e as [q| | | | |s| |ts IH|ts IH|b x IHb IHx|i b IHi IHb|f i IHi|i IHi] using expr_ind'; intros H; cbn [op_neg];
    try (now apply D); try (apply rall_ok, HP).
  apply (h_sum _ HP) in H. eapply (rall_bind _ Pl).
  - induction H as [|t l Ht _ IHl]; [apply rall_ok; constructor|]. inversion IH; subst.
    eapply rall_bind; [apply H1; auto|]. intros t' Ht'. eapply rall_bind; [apply IHl; auto|].
    intros r' Hr'. apply rall_ok. constructor; auto.
  - intros ts' H'. now apply (kh_sum _ HK).
Qed.
Lemma op_abs_her e : P e -> rall P (op_abs k e).
Proof. intros H. unfold op_abs. destruct e; try (apply rall_ok, HP); now apply (kh_abs _ HK). Qed.

Lemma split_like_her ncf l : Pl ncf -> Pl l -> rall (fun p => Pl (fst p) /\ Pl (snd p)) (split_like c ncf l).
Proof.
  intros Hn. induction 1 as [|t l Ht _ IH]; cbn [split_like]; [apply rall_ok; simpl; split; constructor|].
  destruct (decon_prod_her t Ht) as [D1 D2]. destruct (decon_prod t) as [cs ncf2].
  eapply rall_bind; [now apply py_eql_her|]. intros b _. eapply rall_bind; [exact IH|].
  intros [hits rest] [H1 H2]. destruct b; apply rall_ok; cbn [fst snd] in *; split; auto.
  - now apply Forall_app.
  - constructor; auto.
Qed.
Lemma combine_sum_go_her n : forall l, Pl l -> rall (fun p => Pl (fst p) /\ Pl (snd p)) (combine_sum_go c n l).
Proof.
  induction n as [|n IH]; intros [|t l] H; cbn [combine_sum_go]; try (apply rall_ok; simpl; split; constructor; fail);
    try first [apply rall_fuel|apply rall_unm].
  inversion H as [|? ? Ht Hl]; subst. destruct (is_acc t).
  - eapply rall_bind; [apply IH; auto|]. intros [nc cs] [H1 H2]. apply rall_ok. cbn [fst snd] in *. split; auto. constructor; auto.
  - destruct (decon_prod_her t Ht) as [D1 D2]. destruct (decon_prod t) as [coeffs ncf].
    eapply rall_bind; [now apply split_like_her|]. intros [hits rest] [H1 H2].
    eapply rall_bind; [apply IH; auto|]. intros [nc cs] [H3 H4]. cbn [fst snd] in *.
    destruct hits as [|h hs]; [apply rall_ok; simpl; split; auto; constructor; auto|].
    eapply rall_bind; [apply acc_sum_her; now apply Forall_app|]. intros co Hco.
    destruct (isq co 0); [apply rall_ok; auto|]. destruct (isq co 1).
    + eapply rall_bind; [apply prod_skip_her; auto|]. intros p Hp. apply rall_ok. simpl; split; auto; constructor; auto.
    + eapply rall_bind; [apply prod_skip_her; constructor; auto|]. intros p Hp. apply rall_ok. simpl; split; auto; constructor; auto.
Qed.
Lemma combine_sum_her l : Pl l -> rall Pl (combine_sum c l).
Proof.
  intros H. unfold combine_sum. eapply rall_bind; [now apply combine_sum_go_her|].
  intros [nc cs] [H1 H2]. cbn [fst snd] in *. destruct cs as [|c0 cs]; [now apply rall_ok|].
  eapply rall_bind; [now apply acc_sum_her|]. intros k0 Hk. destruct (isq k0 0); apply rall_ok; auto.
  apply Forall_app. split; auto.
Qed.

Lemma split_base_her base l : P base -> Pl l -> forall ex, P ex ->
  rall (fun p => P (snd (fst p)) /\ Pl (snd p)) (split_base c k base ex l).
Proof.
  intros Hb H. induction H as [|t l Ht _ IH]; intros ex Hex; cbn [split_base].
  - apply rall_ok. simpl. split; auto. constructor.
  - destruct (decon_pow_her t Ht) as [D1 D2]. destruct (decon_pow t) as [ob oe]. cbn [fst snd] in *.
    eapply rall_bind; [now apply py_eq_her|]. intros b _. destruct b.
    + eapply rall_bind; [now apply op_add_her|]. intros ex' Hex'. eapply rall_bind; [now apply IH|].
      intros [[h ex2] rest] [H1 H2]. apply rall_ok. auto.
    + eapply rall_bind; [now apply IH|].
      intros [[h ex2] rest] [H1 H2]. apply rall_ok. cbn [fst snd] in *. split; auto. constructor; auto.
Qed.
Lemma add_term_her t p : P t -> Pl (fst p) /\ Pl (snd p) -> Pl (fst (add_term t p)) /\ Pl (snd (add_term t p)).
Proof. intros Ht [H1 H2]. unfold add_term. destruct (is_acc t); simpl; split; auto; constructor; auto. Qed.
Lemma combine_prod_go_her n : forall l, Pl l -> rall (fun p => Pl (fst p) /\ Pl (snd p)) (combine_prod_go c k n l).
Proof.
  induction n as [|n IH]; intros [|t l] H; cbn [combine_prod_go]; try (apply rall_ok; simpl; split; constructor; fail);
    try first [apply rall_fuel|apply rall_unm].
  inversion H as [|? ? Ht Hl]; subst.
  destruct (decon_pow_her t Ht) as [D1 D2]. destruct (decon_pow t) as [base expo]. cbn [fst snd] in *.
  eapply rall_bind; [now apply split_base_her|]. intros [[h ex] rest] [H1 H2]. cbn [fst snd] in *.
  assert (A : forall t', P t' -> rall (fun p => Pl (fst p) /\ Pl (snd p)) (p <- combine_prod_go c k n rest;; Ok (add_term t' p))).
  { intros t' Ht'. eapply rall_bind; [apply IH; auto|]. intros p Hp. apply rall_ok. now apply add_term_her. }
  destruct h; [|now apply A]. destruct (isq ex 0); [now apply IH|]. destruct (isq ex 1); [now apply A|].
  eapply rall_bind; [now apply (kh_pow _ HK)|]. intros t' Ht'. now apply A.
Qed.
Lemma combine_prod_her l : Pl l -> rall Pl (combine_prod c k l).
Proof.
  intros H. unfold combine_prod. eapply rall_bind; [now apply combine_prod_go_her|].
  intros [nc cs] [H1 H2]. cbn [fst snd] in *. destruct cs as [|c0 cs]; [now apply rall_ok|].
  eapply rall_bind; [now apply acc_prod_her|]. intros k0 Hk. destruct (isq k0 0); [apply rall_ok; repeat constructor; auto|].
  destruct (isq k0 1); apply rall_ok; auto.
  apply Forall_app. split; auto.
Qed.

Lemma repr_lt_her a b : P a -> P b -> rall (fun _ => True) (repr_lt k a b).
Proof.
  intros Ha Hb. unfold repr_lt. eapply rall_bind; [now apply (kh_repr _ HK)|]. intros ra _.
  eapply rall_bind; [now apply (kh_repr _ HK)|]. intros; exact I.
Qed.
Lemma lt_terms_her a b : P a -> P b -> rall (fun _ => True) (lt_terms k a b).
Proof.
  intros Ha Hb. unfold lt_terms. eapply rall_bind; [apply nwf_nc|]. intros na _.
  eapply rall_bind; [apply nwf_nc|]. intros nb _. destruct (_ && _).
  - cbv zeta. destruct (Nat.eqb _ _); [now apply repr_lt_her|exact I].
  - destruct (Nat.eqb _ _); [|exact I]. eapply rall_bind; [apply const_power_nc|]. intros pa _.
    eapply rall_bind; [apply const_power_nc|]. intros pb _. destruct (Qeq_bool _ _); [now apply repr_lt_her|exact I].
Qed.
Lemma insert_her x l : P x -> Pl l -> rall Pl (insert_term k x l).
Proof.
  intros Hx. induction 1 as [|y l Hy Hl IH]; cbn [insert_term]; [apply rall_ok; repeat constructor; auto|].
  eapply rall_bind; [now apply lt_terms_her|]. intros [] _; [apply rall_ok; repeat constructor; auto|].
  eapply rall_bind; [exact IH|]. intros r' Hr. apply rall_ok. constructor; auto.
Qed.
Lemma sort_her l : Pl l -> rall Pl (sort_terms k l).
Proof.
  intros H. unfold sort_terms. assert (A : Pl []) by constructor. revert A. generalize (@nil expr).
  induction H as [|x l Hx _ IH]; intros acc A; cbn [foldM]; [now apply rall_ok|].
  eapply rall_bind; [now apply insert_her|]. intros acc' Ha. now apply IH.
Qed.

Lemma sum_body_her ts : Pl ts -> rall P (sum_body c k ts).
Proof.
  intros H. unfold sum_body. eapply rall_bind; [apply combine_sum_her; now apply flat_sum_her|].
  intros nc Hn. assert (D : rall P (s <- sort_terms k nc;; Ok (ESum (rev s)))).
  { eapply rall_bind; [now apply sort_her|]. intros s Hs. apply rall_ok. apply (h_sum _ HP). now apply Forall_rev. }
  destruct nc as [|t [|u nc]]; [apply rall_ok, HP|inversion Hn; now apply rall_ok|exact D].
Qed.

Lemma prod_body_her ts : Pl ts -> rall P (prod_body c k ts).
Proof.
  intros H. unfold prod_body. eapply rall_bind; [apply combine_prod_her; now apply flat_prod_her|].
  intros nc Hn. destruct nc as [|t [|u nc]]; [apply rall_ok, HP|inversion Hn; now apply rall_ok|].
  eapply rall_bind; [now apply sort_her|]. intros s Hs.
  assert (D : rall P (Ok (EProd s))) by (apply rall_ok; now apply (h_prod _ HP)).
  destruct s as [|t0 [|t1 [|t2 s]]]; try exact D; destruct t1; try exact D.
  destruct (isq t0 (-1)); [|exact D]. apply op_neg_her. now inversion Hs as [|? ? _ Hs1]; inversion Hs1.
Qed.

Lemma inf_pow_her b x : rall P (inf_pow b x).
Proof.
  unfold inf_pow. destruct b, x; try first [apply rall_fuel|apply rall_unm]; try (apply rall_ok, HP);
    repeat match goal with |- rall P (if ?b then _ else _) => destruct b end;
    try first [apply rall_fuel|apply rall_unm]; try (apply rall_ok; try destruct (_ && _); apply HP).
Qed.

Definition Po (o : option expr) : Prop := match o with Some e => P e | None => True end.

Lemma acc_pow_her b x : P b -> P x -> rall Po (acc_pow c k b x).
Proof.
  intros Hb Hx. assert (D : rall Po (r <- inf_pow b x;; Ok (Some r))).
  { eapply rall_bind; [apply inf_pow_her|]. intros r Hr. now apply rall_ok. }
  unfold acc_pow. destruct b as [p| | | | | | | | | | | |]; try exact D.
  destruct x as [q| | | | | | | | | | | |]; try exact D. clear D.
  destruct (qis0 p); [apply rall_ok; destruct (qgt0 q); apply HP|].
  set (num := int_pow c (numer p) (Qabs q)). set (den := int_pow c (denom p) (Qabs q)). cbv zeta.
  assert (R : rall Po (if (numer p =? 1) || negb (denom p =? 1) && qlt0 q
     then r <- k_pow k (rat (/ p)) (rat (- q));; Ok (Some r)
     else if Z.even (denom q) && qlt0 p then Ok None
     else if qlt0 p then r <- k_pow k (rat (- p)) (ERat q);; s <- op_mul k (ERat (-1)) r;; Ok (Some s)
     else match match num, den with
                | Some m, _ =>
                    if m =? 1 then
                      match den with
                      | Some d => if d =? 1 then None else
                          Some (EProd [rat (/ inject_Z d); EPow (ratz (numer p)) (ERat q)])
                      | None => None
                      end
                    else Some (EProd [ratz m; EPow (ratz (denom p)) (rat (- q))])
                | None, Some d =>
                    if d =? 1 then None
                    else Some (EProd [rat (/ inject_Z d); EPow (ratz (numer p)) (ERat q)])
                | None, None => None
                end with
          | None => Ok None
          | Some a => if qgt0 q then Ok (Some a) else r <- op_div k (ERat 1) a;; Ok (Some r)
          end)).
  { destruct (_ || _).
    { eapply rall_bind; [apply (kh_pow _ HK); apply HP|]. intros r Hr. now apply rall_ok. }
    destruct (_ && _); [apply rall_ok; exact I|]. destruct (qlt0 p).
    { eapply rall_bind; [apply (kh_pow _ HK); apply HP|]. intros r Hr.
      eapply rall_bind; [apply op_mul_her; auto; apply HP|]. intros s Hs. now apply rall_ok. }
    match goal with |- rall Po (match ?o with Some a => _ | None => _ end) => assert (A : Po o) end.
    { assert (E : forall u v w, P (EProd [rat u; EPow (ratz v) (ERat w)])).
      { intros. apply (h_prod _ HP). repeat constructor; [apply HP|]. apply (h_mkpow _ HP); [reflexivity|apply HP..]. }
      destruct num as [m|], den as [d|]; try exact I; 
      repeat match goal with |- Po (if ?b then _ else _) => destruct b end; try exact I; try apply E;
      (apply (h_prod _ HP); repeat constructor; [apply HP|]; apply (h_mkpow _ HP); [reflexivity|apply HP..]). }
    match goal with |- rall Po (match ?o with Some a => _ | None => _ end) => destruct o as [a|] end.
    - destruct (qgt0 q); [now apply rall_ok|]. eapply rall_bind; [apply op_div_her; [apply HP|exact A]|].
      intros r Hr. now apply rall_ok.
    - apply rall_ok. exact I. }
  destruct num as [m|], den as [d|]; try exact R. apply rall_ok. destruct (qgt0 q); apply HP.
Qed.

Lemma mult_exp_her b x1 x2 : P b -> P x1 -> P x2 -> rall P (mult_exp k b x1 x2).
Proof.
  intros Hb H1 H2. assert (D : rall P (m <- op_mul k x1 x2;; op_pow k b m)).
  { eapply rall_bind; [now apply op_mul_her|]. intros m Hm. now apply op_pow_her. }
  unfold mult_exp. destruct x1, x2; try exact D. destruct (qis0 (qmod q 2)); [|exact D].
  destruct (qis0 q0); [apply rall_raise|]. destruct (Qeq_bool _ _); [now apply (kh_abs _ HK)|exact D].
Qed.

Lemma find_log_her b l : P b -> Pl l -> forall pre, Pl pre -> 
  rall (fun o => match o with Some (i, r) => P i /\ Pl r | None => True end) (find_log c b pre l).
Proof.
  intros Hb. induction 1 as [|t l Ht Hl IH]; intros pre Hpre; cbn [find_log]; [apply rall_ok; exact I|].
  assert (D : rall (fun o => match o with Some (i, r) => P i /\ Pl r | None => True end) (find_log c b (pre ++ [t]) l)).
  { apply IH. apply Forall_app; split; auto. }
  destruct t; try exact D. apply (h_log _ HP) in Ht as [Hi Hlb]. eapply rall_bind; [now apply py_eq_her|]. intros e _. destruct e; [|exact D].
  apply rall_ok. split; auto. now apply Forall_app.
Qed.

Lemma pow_tail_her b x : is_pow b = false -> P b -> P x -> rall P (pow_tail k b x).
Proof.
  intros Hn Hb Hx. assert (D : rall P (Ok (EPow b x))) by (apply rall_ok; now apply (h_mkpow _ HP)).
  unfold pow_tail. destruct x; try (destruct (_ && _); exact D).
  - destruct (_ && _); [|exact D]. eapply rall_bind; [now apply op_neg_her|]. intros nb Hnb.
    destruct (Z.even _); [now apply (kh_pow _ HK)|]. eapply rall_bind; [now apply (kh_pow _ HK)|].
    intros p Hp. now apply op_neg_her.
  - destruct (_ && _); [apply rall_ok, HP|exact D].
  - destruct (_ && _); [apply rall_ok, HP|exact D].
Qed.

Lemma pow_body_her b x : P b -> P x -> rall P (pow_body c k b x).
Proof.
  intros Hb Hx. unfold pow_body. destruct (isq x 0); [apply rall_ok, HP|].
  destruct (isq x 1); [now apply rall_ok|]. destruct (isq b 1); [apply rall_ok, HP|].
  destruct (is_acc b && is_acc x) eqn:Ea.
  { eapply rall_bind; [now apply acc_pow_her|]. intros [e|] He; apply rall_ok; auto.
    apply (h_mkpow _ HP); auto. destruct b; try reflexivity; discriminate. }
  assert (D : is_pow b = false -> rall P (if is_prod b && negb (is_sub b) then
          ts <- mapM (fun t => k_pow k t x) (children b);; k_prod k ts
        else
          match x with
          | ELog i lb =>
              e <- py_eq c b lb;;
              if e : bool then Ok i else pow_tail k b x
          | EProd xs =>
              r <- find_log c b [] xs;;
              match r with
              | Some (i, rest) => rest' <- prod_skip rest;; k_pow k i rest'
              | None => pow_tail k b x
              end
          | _ => pow_tail k b x
          end)).
  { intros Hn. destruct (is_prod b) eqn:Ep; simpl.
    - destruct b; try discriminate. apply (h_prod _ HP) in Hb as Hb'. destruct (negb _).
      + eapply rall_bind; [apply (rall_mapM _ P P); [exact Hb'|]|].
        * intros t Ht. now apply (kh_pow _ HK).
        * intros ts' Hts. now apply (kh_prod _ HK).
      + pose proof (pow_tail_her (EProd ts) x eq_refl Hb Hx) as T. destruct x; try exact T.
        * apply (h_prod _ HP) in Hx. eapply rall_bind; [apply find_log_her; [auto|exact Hx|constructor]|].
          intros [[i rest]|]; [|intros _; exact T]. intros [Hi Hr].
          eapply rall_bind; [now apply prod_skip_her|]. intros r' Hr'. now apply (kh_pow _ HK).
        * apply (h_log _ HP) in Hx as [Hi Hlb]. eapply rall_bind; [now apply py_eq_her|]. intros e _.
          destruct e; [now apply rall_ok|exact T].
    - pose proof (pow_tail_her b x Hn Hb Hx) as T. destruct x; try exact T.
        * apply (h_prod _ HP) in Hx. eapply rall_bind; [apply find_log_her; [auto|exact Hx|constructor]|].
          intros [[i rest]|]; [|intros _; exact T]. intros [Hi Hr].
          eapply rall_bind; [now apply prod_skip_her|]. intros r' Hr'. now apply (kh_pow _ HK).
        * apply (h_log _ HP) in Hx as [Hi Hlb]. eapply rall_bind; [now apply py_eq_her|]. intros e _.
          destruct e; [now apply rall_ok|exact T]. }
  destruct b; try exact (D eq_refl). apply (h_pow _ HP) in Hb as [H1 H2]. now apply mult_exp_her.
Qed.

Lemma abs_body_her e : P e -> rall P (abs_body k e).
Proof.
  intros H. assert (D : rall P (if is_sub e then
        n <- op_neg k e;;
        r <- k_abs k n;;
        Ok (match r with EAbs _ => EAbs e | _ => r end)
      else
        p <- strictly_positive e;;
        if p : bool then Ok e else Ok (EAbs e))).
  { assert (A : P (EAbs e)) by now apply (h_abs _ HP). destruct (is_sub e).
    - eapply rall_bind; [now apply op_neg_her|]. intros n Hn. eapply rall_bind; [now apply (kh_abs _ HK)|].
      intros r Hr. apply rall_ok. destruct r; auto.
    - eapply rall_bind; [apply strictly_positive_nc|]. intros [] _; now apply rall_ok. }
  unfold abs_body. destruct e; try exact D; apply rall_ok; try apply HP; auto.
Qed.

Lemma numden_go_her l : Pl l -> rall (fun p => Pl (fst p) /\ Pl (snd p)) (numden_go k l).
Proof.
  induction 1 as [|t l Ht _ IH]; cbn [numden_go]; [apply rall_ok; split; constructor|].
  assert (D : rall (fun p => Pl (fst p) /\ Pl (snd p)) (let '(b, x) := decon_pow t in
      '(n, d) <- numden_go k l;;
      match x with
      | ERat q =>
          if qlt0 q then
            if Qeq_bool q (-1) then Ok (n, b :: d)
            else p <- k_pow k b (rat (- q));; Ok (n, p :: d)
          else Ok (t :: n, d)
      | ENegInf => p <- k_pow k b EInf;; Ok (n, p :: d)
      | _ => Ok (t :: n, d)
      end)).
  { destruct (decon_pow_her t Ht) as [D1 D2]. destruct (decon_pow t) as [b x]. simpl in D1, D2.
    eapply rall_bind; [exact IH|]. intros [n d] [Hn Hd]. simpl in Hn, Hd.
    assert (E : rall (fun p : list expr * list expr => Pl (fst p) /\ Pl (snd p)) (Ok (t :: n, d)))
      by (apply rall_ok; simpl; split; auto; constructor; auto).
    assert (G : forall y, P y -> rall (fun p : list expr * list expr => Pl (fst p) /\ Pl (snd p))
       (p <- k_pow k b y;; Ok (n, p :: d))).
    { intros y Hy. eapply rall_bind; [now apply (kh_pow _ HK)|]. intros p Hp. apply rall_ok; simpl; split; auto; constructor; auto. }
    destruct x; try exact E.
    - destruct (qlt0 q); [|exact E]. destruct (Qeq_bool q (-1)); [|apply G, HP].
      apply rall_ok; simpl; split; auto; constructor; auto.
    - apply G, HP. }
  destruct t; try exact D. clear D. eapply rall_bind; [exact IH|]. intros [n d] [Hn Hd]. simpl in Hn, Hd.
  apply rall_ok. cbn [fst snd]. split; [destruct (numer q =? 1)|destruct (denom q =? 1)]; auto; constructor; auto; apply HP.
Qed.

Lemma numden_her l : Pl l -> rall (fun p => P (fst p) /\ P (snd p)) (numden k l).
Proof.
  intros H. unfold numden. eapply rall_bind; [now apply numden_go_her|]. intros [n d] [Hn Hd].
  eapply rall_bind; [now apply prod_skip_her|]. intros ne Hne. eapply rall_bind; [now apply prod_skip_her|].
  intros de Hde. now apply rall_ok.
Qed.
Let T : string -> Prop := fun _ => True.
Lemma prod_term_repr_her t : P t -> rall T (prod_term_repr k t).
Proof. intros H. unfold prod_term_repr. eapply rall_bind; [now apply (kh_repr _ HK)|]. intros; exact I. Qed.
Lemma pow_term_repr_her t : P t -> rall T (pow_term_repr k t).
Proof. intros H. unfold pow_term_repr. eapply rall_bind; [now apply (kh_repr _ HK)|]. intros; exact I. Qed.
Lemma repr_fn_her l t : P t -> rall T (repr_fn k l t).
Proof.
  intros H. unfold repr_fn. eapply rall_bind; [now apply (kh_repr _ HK)|]. intros s _.
  destruct (String.get 0 s); [destruct (last_char s)|]; exact I.
Qed.
Lemma sum_repr_rest_her l : Pl l -> rall T (sum_repr_rest k l).
Proof.
  induction 1 as [|t l Ht _ IH]; cbn [sum_repr_rest]; [exact I|].
  eapply (rall_bind _ T).
  - destruct (is_sub t).
    + eapply rall_bind; [now apply op_neg_her|]. intros n Hn. eapply rall_bind; [now apply (kh_repr _ HK)|]. intros; exact I.
    + eapply rall_bind; [now apply (kh_repr _ HK)|]. intros; exact I.
  - intros s _. eapply rall_bind; [exact IH|]. intros; exact I.
Qed.
Context (HEE : forall i b, P (ELog i b) -> coin b EE = true -> strict c = true -> AC).
Lemma log_label_her i b : P (ELog i b) -> rall T (log_label c k b).
Proof.
  intros HL. pose proof (proj2 (h_log _ HP _ _ HL)) as H. unfold log_label. eapply (rall_bind _ (fun _ => True)).
  { unfold py_eq. destruct (strict c) eqn:S; [|exact I]. simpl. destruct (coin b EE) eqn:E; [|exact I]. exact (HEE _ _ HL E eq_refl). }
  intros [] _; [exact I|]. destruct b; try (eapply rall_bind; [now apply (kh_repr _ HK)|]; intros; exact I).
  destruct (qisint q); [exact I|]. eapply rall_bind; [now apply (kh_repr _ HK)|]; intros; exact I.
Qed.

Lemma repr_body_her e : P e -> rall T (repr_body c k e).
Proof.
  intros H. pose proof (kh_repr _ HK) as HR.
  assert (T2 : forall b x, P b -> P x -> rall T (s1 <- pow_term_repr k b;; s2 <- pow_term_repr k x;; Ok (s1 ++ "^" ++ s2)%string)).
  { intros b x Hb Hx. eapply rall_bind; [now apply pow_term_repr_her|]. intros s _.
    eapply rall_bind; [now apply pow_term_repr_her|]. intros; exact I. }
  destruct e; try exact I; cbn [repr_body].
  - apply (h_sum _ HP) in H. destruct ts as [|t ts]; [exact I|]. inversion H; subst.
    eapply rall_bind; [now apply HR|]. intros s _. eapply rall_bind; [now apply sum_repr_rest_her|]. intros; exact I.
  - apply (h_prod _ HP) in H as HL. destruct (is_sub (EProd ts)).
    + eapply rall_bind; [apply op_mul_her; [exact H|apply HP]|]. intros n Hn. destruct (is_prod n).
      * destruct (is_sub n); [exact I|]. eapply rall_bind; [now apply HR|]. intros; exact I.
      * eapply rall_bind; [now apply prod_term_repr_her|]. intros; exact I.
    + eapply rall_bind; [now apply numden_her|]. intros [n d] [Hn Hd]. cbn [fst snd] in Hn, Hd. destruct (isq d 1).
      * eapply rall_bind; [apply (rall_mapM _ P T); [exact HL|]|intros; exact I]. intros t Ht. now apply prod_term_repr_her.
      * eapply (rall_bind _ T). { destruct (is_prod n); [now apply HR|now apply prod_term_repr_her]. }
        intros ns _. eapply (rall_bind _ T); [|intros; exact I].
        destruct (is_prod d); [|now apply prod_term_repr_her]. eapply rall_bind; [now apply HR|]. intros; exact I.
  - apply (h_pow _ HP) in H as [Hb Hx]. destruct (isq e2 (-1)).
    + eapply rall_bind; [now apply pow_term_repr_her|]. intros; exact I.
    + destruct e2; try (now apply T2). destruct (qlt0 q).
      * eapply rall_bind; [apply (kh_pow _ HK); [auto|apply HP]|]. intros p Hp.
        eapply rall_bind; [now apply HR|]. intros; exact I.
      * destruct (Qeq_bool _ _); [now apply repr_fn_her|now apply T2].
  - pose proof (h_log _ HP _ _ H) as [Hi Hb]. eapply rall_bind; [eapply log_label_her; eauto|]. intros l _. now apply repr_fn_her.
  - apply (h_trig _ HP) in H. now apply repr_fn_her.
  - apply (proj1 (h_abs _ HP _)) in H. eapply rall_bind; [now apply HR|]. intros; exact I.
Qed.

Lemma build_her : KHer (build c k).
Proof.
  constructor; simpl; [apply sum_body_her|apply prod_body_her|apply pow_body_her|apply abs_body_her|apply repr_body_her].
Qed.

End Step.

Theorem K_her c n :
  (forall a b, strict c = true -> P a -> P b -> coin a b = true -> AC) ->
  (forall i b, strict c = true -> P (ELog i b) -> coin b EE = true -> AC) -> KHer (K c n).
Proof.
  intros HC HE. induction n as [|n IH]; [constructor; intros; apply rall_fuel|].
  apply build_her; auto. intros i b Hb E S. exact (HE i b S Hb E).
Qed.
End Her.

(** ** Instances *)

(** Only symbols of [l]. *)
Definition only_syms (l : list string) (e : expr) : Prop := forall v, contains v e = true -> In v l.
Lemma only_syms_her l : Her (only_syms l).
Proof.
  apply mkHer; unfold only_syms; cbn [contains]; try discriminate.
  - intros ts. rewrite Forall_forall. split.
    + intros H t Ht v Hv. apply H. apply existsb_exists. eauto.
    + intros H v Hv. apply existsb_exists in Hv as (t & H1 & H2). eapply H; eauto.
  - intros ts. rewrite Forall_forall. split.
    + intros H t Ht v Hv. apply H. apply existsb_exists. eauto.
    + intros H v Hv. apply existsb_exists in Hv as (t & H1 & H2). eapply H; eauto.
  - intros b x. split.
    + intros H. split; intros v Hv; apply H; rewrite Hv; auto using orb_true_r.
    + intros [H1 H2] v Hv. apply orb_prop in Hv as [Hv|Hv]; auto.
  - intros b x H. split; intros v Hv; apply H; rewrite Hv; auto using orb_true_r.
  - auto.
  - intros i. split; auto.
Qed.

(** No node satisfying a leaf test. *)
Definition leafb (p : expr -> bool) : Prop :=
  forall e, p e = true -> match e with ESym _ | EAny _ | EPi | EE => True | _ => False end.
Definition free_of (p : expr -> bool) (e : expr) : Prop := gcontains p e = false.
Lemma free_of_her p : leafb p -> Her (free_of p).
Proof.
  intros HL.
  assert (N : forall e, match e with ESym _ | EAny _ | EPi | EE => False | _ => True end -> p e = false).
  { intros e He. destruct (p e) eqn:E; auto. apply HL in E. destruct e; tauto. }
  assert (X : forall ts, existsb (gcontains p) ts = false <-> Forall (free_of p) ts).
  { intros ts. induction ts as [|t ts IH]; simpl; split; intros; auto.
    - apply orb_false_iff in H as [H1 H2]. constructor; auto. now apply IH.
    - inversion H; subst. apply orb_false_iff. split; auto. now apply IH. }
  apply mkHer; unfold free_of in *; cbn [gcontains]; intros; rewrite ?N by exact I; simpl; auto; try tauto.
  - apply orb_false_iff.
  - rewrite N in H by exact I. now apply orb_false_iff.
  - rewrite N in H by exact I. exact H.
Qed.

Definition is_pie (e : expr) : bool := match e with EPi | EE => true | _ => false end.
Lemma pie_leaf : leafb is_pie.
Proof. intros []; simpl; try discriminate; auto. Qed.
