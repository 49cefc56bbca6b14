(** * Agree: strict and plain runs differ only where a coincidence is met.

    Strict mode ([cfg.strict], see Kernel) stops at an equality test in which a rational with the
    binary64 value of pi or e meets pi or e.  Here: with the same fuel, a strict run either stops
    at such a coincidence or is the plain run; on operands without pi, e and logarithms no
    coincidence can be met, so there the strict run *is* the plain run. *)
From Verif Require Export Mono Atoms.

Definition rlc {A} (r1 r2 : res A) : Prop := r1 = Stop Coincidence \/ r1 = r2.
Lemma rlc_refl {A} (r : res A) : rlc r r.
Proof. now right. Qed.
Lemma rlc_stop {A} (r : res A) : rlc (Stop Coincidence) r.
Proof. now left. Qed.
Lemma rlc_bind {A B} (r1 r2 : res A) (f g : A -> res B) :
  rlc r1 r2 -> (forall a, rlc (f a) (g a)) -> rlc (bind r1 f) (bind r2 g).
Proof. intros [->| ->] H; [now left|]. destruct r2; simpl; auto using rlc_refl. Qed.
Lemma rlc_mapM {A B} (f g : A -> res B) l :
  (forall a, rlc (f a) (g a)) -> rlc (mapM f l) (mapM g l).
Proof.
  intros H; induction l as [|a l IH]; simpl; [apply rlc_refl|].
  apply rlc_bind; auto; intros b; apply rlc_bind; auto; intros; apply rlc_refl.
Qed.
Lemma rlc_foldM {A B} (f g : B -> A -> res B) l : forall b,
  (forall b a, rlc (f b a) (g b a)) -> rlc (foldM f l b) (foldM g l b).
Proof.
  induction l as [|a l IH]; simpl; intros b H; [apply rlc_refl|].
  apply rlc_bind; auto.
Qed.

Record klc (k1 k2 : kern) : Prop := {
  lc_sum : forall ts, rlc (k_sum k1 ts) (k_sum k2 ts);
  lc_prod : forall ts, rlc (k_prod k1 ts) (k_prod k2 ts);
  lc_pow : forall b x, rlc (k_pow k1 b x) (k_pow k2 b x);
  lc_abs : forall e, rlc (k_abs k1 e) (k_abs k2 e);
  lc_repr : forall e, rlc (k_repr k1 e) (k_repr k2 e) }.

Definition sc (c1 c2 : cfg) : Prop := fpow c1 = fpow c2 /\ (strict c1 = true \/ strict c2 = false).

Create HintDb agr.
#[export] Hint Resolve rlc_refl rlc_stop : agr.

Ltac agr1 :=
  match goal with
  | |- rlc ?a ?a => apply rlc_refl
  | |- rlc (bind _ _) (bind _ _) => apply rlc_bind; [|intros ?]
  | |- rlc (mapM _ _) (mapM _ _) => apply rlc_mapM; intros ?
  | |- rlc (foldM _ _ _) (foldM _ _ _) => apply rlc_foldM; intros ? ?
  | |- rlc (if ?b then _ else _) (if ?b then _ else _) => destruct b
  | |- rlc (let '(_, _) := ?x in _) (let '(_, _) := ?x in _) => destruct x
  | |- rlc (match ?x with _ => _ end) (match ?x with _ => _ end) => destruct x
  | |- _ => solve [eauto with agr]
  end.
Ltac agr := repeat agr1.

Section Agree.
Context (c1 c2 : cfg) (k1 k2 : kern) (HC : sc c1 c2) (HK : klc k1 k2).
Let Hs := lc_sum _ _ HK.
Let Hp := lc_prod _ _ HK.
Let Hw := lc_pow _ _ HK.
Let Ha := lc_abs _ _ HK.
Let Hr := lc_repr _ _ HK.
#[local] Hint Resolve Hs Hp Hw Ha Hr : agr.

Lemma py_eq_agr a b : rlc (py_eq c1 a b) (py_eq c2 a b).
Proof.
  unfold py_eq. destruct HC as [_ [H|H]]; rewrite H; simpl.
  - destruct (coin a b); [apply rlc_stop|]. rewrite andb_false_r. apply rlc_refl.
  - destruct (strict c1 && coin a b); auto with agr.
Qed.
Lemma py_eql_agr a b : rlc (py_eql c1 a b) (py_eql c2 a b).
Proof.
  unfold py_eql. destruct HC as [_ [H|H]]; rewrite H; simpl.
  - destruct (coinl a b); [apply rlc_stop|]. rewrite andb_false_r. apply rlc_refl.
  - destruct (strict c1 && coinl a b); auto with agr.
Qed.
#[local] Hint Resolve py_eq_agr py_eql_agr : agr.

Lemma op_add_agr a b : rlc (op_add k1 a b) (op_add k2 a b).
Proof. unfold op_add. agr. Qed.
Lemma op_mul_agr a b : rlc (op_mul k1 a b) (op_mul k2 a b).
Proof. unfold op_mul. agr. Qed.
#[local] Hint Resolve op_add_agr op_mul_agr : agr.
Lemma op_sub_agr a b : rlc (op_sub k1 a b) (op_sub k2 a b).
Proof. unfold op_sub. agr. Qed.
Lemma op_div_agr a b : rlc (op_div k1 a b) (op_div k2 a b).
Proof. unfold op_div. agr. Qed.
Lemma op_pow_agr a b : rlc (op_pow k1 a b) (op_pow k2 a b).
Proof. unfold op_pow. agr. Qed.
Lemma op_abs_agr a : rlc (op_abs k1 a) (op_abs k2 a).
Proof. unfold op_abs. agr. Qed.
Lemma op_neg_agr e : rlc (op_neg k1 e) (op_neg k2 e).
Proof.
  induction e as [q| | | | | | |ts IH|ts IH|b x IHb IHx| | |] using expr_ind';
    try apply rlc_refl; try apply op_mul_agr.
  cbn [op_neg]. apply rlc_bind; [|intros; apply Hs].
  induction IH as [|t l Ht Hl IHl]; [apply rlc_refl|]. agr.
Qed.
#[local] Hint Resolve op_sub_agr op_div_agr op_pow_agr op_abs_agr op_neg_agr : agr.

Lemma split_like_agr n l : rlc (split_like c1 n l) (split_like c2 n l).
Proof. induction l as [|t l IH]; cbn [split_like]; agr. Qed.
#[local] Hint Resolve split_like_agr : agr.
Lemma combine_sum_go_agr n : forall l, rlc (combine_sum_go c1 n l) (combine_sum_go c2 n l).
Proof. induction n as [|n IH]; intros [|t l]; cbn [combine_sum_go]; agr. Qed.
#[local] Hint Resolve combine_sum_go_agr : agr.
Lemma combine_sum_agr l : rlc (combine_sum c1 l) (combine_sum c2 l).
Proof. unfold combine_sum. agr. Qed.
#[local] Hint Resolve combine_sum_agr : agr.

Lemma split_base_agr b l : forall x, rlc (split_base c1 k1 b x l) (split_base c2 k2 b x l).
Proof. induction l as [|t l IH]; intros x; cbn [split_base]; agr. Qed.
#[local] Hint Resolve split_base_agr : agr.
Lemma combine_prod_go_agr n : forall l, rlc (combine_prod_go c1 k1 n l) (combine_prod_go c2 k2 n l).
Proof. induction n as [|n IH]; intros [|t l]; cbn [combine_prod_go]; agr. Qed.
#[local] Hint Resolve combine_prod_go_agr : agr.
Lemma combine_prod_agr l : rlc (combine_prod c1 k1 l) (combine_prod c2 k2 l).
Proof. unfold combine_prod. agr. Qed.
#[local] Hint Resolve combine_prod_agr : agr.

Lemma repr_lt_agr a b : rlc (repr_lt k1 a b) (repr_lt k2 a b).
Proof. unfold repr_lt. agr. Qed.
#[local] Hint Resolve repr_lt_agr : agr.
Lemma lt_terms_agr a b : rlc (lt_terms k1 a b) (lt_terms k2 a b).
Proof. unfold lt_terms. cbv zeta. agr. Qed.
#[local] Hint Resolve lt_terms_agr : agr.
Lemma insert_term_agr x l : rlc (insert_term k1 x l) (insert_term k2 x l).
Proof. induction l as [|t l IH]; cbn [insert_term]; agr. Qed.
#[local] Hint Resolve insert_term_agr : agr.
Lemma sort_terms_agr l : rlc (sort_terms k1 l) (sort_terms k2 l).
Proof. unfold sort_terms. agr. Qed.
#[local] Hint Resolve sort_terms_agr : agr.

Lemma sum_body_agr l : rlc (sum_body c1 k1 l) (sum_body c2 k2 l).
Proof. unfold sum_body. agr. Qed.
Lemma prod_body_agr l : rlc (prod_body c1 k1 l) (prod_body c2 k2 l).
Proof. unfold prod_body. agr. Qed.

Lemma int_pow_agr a x : int_pow c1 a x = int_pow c2 a x.
Proof. unfold int_pow. now rewrite (proj1 HC). Qed.
Lemma acc_pow_agr b x : rlc (acc_pow c1 k1 b x) (acc_pow c2 k2 b x).
Proof. unfold acc_pow. destruct b, x; try apply rlc_refl. rewrite !int_pow_agr. cbv zeta. agr. Qed.
Lemma mult_exp_agr b x y : rlc (mult_exp k1 b x y) (mult_exp k2 b x y).
Proof. unfold mult_exp. cbv zeta. agr. Qed.
Lemma find_log_agr b l : forall p, rlc (find_log c1 b p l) (find_log c2 b p l).
Proof. induction l as [|t l IH]; intros p; cbn [find_log]; agr. Qed.
Lemma pow_tail_agr b x : rlc (pow_tail k1 b x) (pow_tail k2 b x).
Proof. unfold pow_tail. agr. Qed.
#[local] Hint Resolve acc_pow_agr mult_exp_agr find_log_agr pow_tail_agr : agr.
Lemma pow_body_agr b x : rlc (pow_body c1 k1 b x) (pow_body c2 k2 b x).
Proof. unfold pow_body. agr. Qed.
Lemma abs_body_agr e : rlc (abs_body k1 e) (abs_body k2 e).
Proof. unfold abs_body. agr. Qed.

Lemma prod_term_repr_agr t : rlc (prod_term_repr k1 t) (prod_term_repr k2 t).
Proof. unfold prod_term_repr. agr. Qed.
Lemma pow_term_repr_agr t : rlc (pow_term_repr k1 t) (pow_term_repr k2 t).
Proof. unfold pow_term_repr. agr. Qed.
Lemma repr_fn_agr s t : rlc (repr_fn k1 s t) (repr_fn k2 s t).
Proof. unfold repr_fn. agr. Qed.
Lemma numden_go_agr l : rlc (numden_go k1 l) (numden_go k2 l).
Proof. induction l as [|t l IH]; cbn [numden_go]; [apply rlc_refl|]. destruct t; agr. Qed.
#[local] Hint Resolve numden_go_agr prod_term_repr_agr pow_term_repr_agr repr_fn_agr : agr.
Lemma numden_agr l : rlc (numden k1 l) (numden k2 l).
Proof. unfold numden. agr. Qed.
Lemma log_label_agr b : rlc (log_label c1 k1 b) (log_label c2 k2 b).
Proof. unfold log_label. agr. Qed.
Lemma sum_repr_rest_agr l : rlc (sum_repr_rest k1 l) (sum_repr_rest k2 l).
Proof. induction l as [|t l IH]; cbn [sum_repr_rest]; agr. Qed.
#[local] Hint Resolve numden_agr log_label_agr sum_repr_rest_agr : agr.
Lemma repr_body_agr e : rlc (repr_body c1 k1 e) (repr_body c2 k2 e).
Proof. unfold repr_body. destruct e; agr. Qed.

Lemma build_agr : klc (build c1 k1) (build c2 k2).
Proof.
  constructor; intros; simpl; [apply sum_body_agr | apply prod_body_agr | apply pow_body_agr
    | apply abs_body_agr | apply repr_body_agr].
Qed.
End Agree.


Theorem K_agree c1 c2 n : sc c1 c2 -> klc (K c1 n) (K c2 n).
Proof.
  intros HC. induction n as [|n IH]; [constructor; intros; apply rlc_refl|].
  simpl. now apply build_agr.
Qed.

(** ** Operands without pi, e and logarithms *)

Fixpoint plain (e : expr) : bool :=
  match e with
  | EPi | EE | ELog _ _ => false
  | ESum ts | EProd ts => forallb plain ts
  | EPow b x => plain b && plain x
  | ETrig _ i | EAbs i => plain i
  | _ => true
  end.
Lemma plain_her : Her (fun e => plain e = true).
Proof.
  assert (A : forall l, forallb plain l = true <-> Forall (fun e => plain e = true) l).
  { intros l. rewrite forallb_forall, Forall_forall. tauto. }
  apply mkHer; cbn [plain]; auto; try discriminate; intros; try tauto; try apply A.
  apply andb_true_iff.
Qed.
Lemma plain_coin a : forall b, plain a = true -> plain b = true -> coin a b = false.
Proof.
  assert (L : forall l, Forall (fun a => forall b, plain a = true -> plain b = true -> coin a b = false) l ->
     forall m, forallb plain l = true -> forallb plain m = true -> coinl l m = false).
  { induction 1 as [|x l Hx _ IH]; intros [|y m] H1 H2; auto. simpl in *.
    apply andb_true_iff in H1 as [A B], H2 as [C D]. rewrite Hx, IH; auto. }
  induction a as [q| | | | |s| |ts IH|ts IH|b1 x1 IHb IHx|i1 b1 IHi IHb|f i1 IHi|i1 IHi] using expr_ind';
    intros b H1 H3; destruct b; try discriminate; try reflexivity.
  - apply (L ts IH); auto.
  - apply (L ts IH); auto.
  - cbn in *. apply andb_true_iff in H1 as [A B], H3 as [C D]. rewrite IHb, IHx; auto.
  - apply IHi; auto.
  - apply IHi; auto.
Qed.

(** On plain operands the strict kernel never stops at a coincidence, and results are plain. *)
Lemma K_plain c n : KHer False (fun e => plain e = true) (K c n).
Proof.
  apply K_her; [exact plain_her| |].
  - intros a b _ Ha Hb E. rewrite plain_coin in E; auto. discriminate.
  - intros i b _ H. discriminate.
Qed.

Definition strictly (c : cfg) : cfg := {| strict := true; fpow := fpow c |}.
Lemma sc_strictly c : sc (strictly c) c.
Proof. split; simpl; auto. Qed.

Lemma rlc_rall {A} (Q : A -> Prop) (r1 r2 : res A) : rlc r1 r2 -> rall False Q r1 -> r1 = r2.
Proof. intros [->|H]; auto. intros []. Qed.

Section PlainRuns.
Context (c : cfg) (n : nat).
Notation ks := (K (strictly c) n).
Notation kf := (K c n).
Theorem plain_sum ts : Forall (fun e => plain e = true) ts -> k_sum ks ts = k_sum kf ts.
Proof. intros H. eapply rlc_rall; [apply (lc_sum _ _ (K_agree _ _ n (sc_strictly c)))|]. now apply (kh_sum _ _ _ (K_plain _ n)). Qed.
Theorem plain_prod ts : Forall (fun e => plain e = true) ts -> k_prod ks ts = k_prod kf ts.
Proof. intros H. eapply rlc_rall; [apply (lc_prod _ _ (K_agree _ _ n (sc_strictly c)))|]. now apply (kh_prod _ _ _ (K_plain _ n)). Qed.
Theorem plain_pow b x : plain b = true -> plain x = true -> k_pow ks b x = k_pow kf b x.
Proof. intros H1 H2. eapply rlc_rall; [apply (lc_pow _ _ (K_agree _ _ n (sc_strictly c)))|]. now apply (kh_pow _ _ _ (K_plain _ n)). Qed.
Theorem plain_abs e : plain e = true -> k_abs ks e = k_abs kf e.
Proof. intros H. eapply rlc_rall; [apply (lc_abs _ _ (K_agree _ _ n (sc_strictly c)))|]. now apply (kh_abs _ _ _ (K_plain _ n)). Qed.
Theorem plain_repr e : plain e = true -> k_repr ks e = k_repr kf e.
Proof. intros H. eapply rlc_rall; [apply (lc_repr _ _ (K_agree _ _ n (sc_strictly c)))|]. now apply (kh_repr _ _ _ (K_plain _ n)). Qed.
End PlainRuns.
