(** * Mono: fuel and strictness never change a completed result (C50). *)
From Verif Require Export Kernel.

(** [k2] returns whatever [k1] returns, whenever [k1] does not stop. *)
Record kle (k1 k2 : kern) : Prop := {
  le_sum : forall ts, rle (k_sum k1 ts) (k_sum k2 ts);
  le_prod : forall ts, rle (k_prod k1 ts) (k_prod k2 ts);
  le_pow : forall b x, rle (k_pow k1 b x) (k_pow k2 b x);
  le_abs : forall e, rle (k_abs k1 e) (k_abs k2 e);
  le_repr : forall e, rle (k_repr k1 e) (k_repr k2 e) }.

(** [c2] is [c1] or its faithful version. *)
Definition cle (c1 c2 : cfg) : Prop :=
  fpow c1 = fpow c2 /\ (strict c1 = true \/ strict c2 = false).

Lemma cle_refl c : cle c c.
Proof. split; auto. destruct (strict c); auto. Qed.

Lemma kle_refl k : kle k k.
Proof. constructor; intros; apply rle_refl. Qed.

Lemma kle_trans a b d : kle a b -> kle b d -> kle a d.
Proof. intros [] []; constructor; intros; eapply rle_trans; eauto. Qed.

Lemma rle_if {A} (b : bool) (x y x' y' : res A) : rle x x' -> rle y y' ->
  rle (if b then x else y) (if b then x' else y').
Proof. destruct b; auto. Qed.

Create HintDb mono.
#[export] Hint Resolve rle_refl rle_stop : mono.

Ltac mono1 :=
  match goal with
  | |- rle ?a ?a => apply rle_refl
  | |- rle (Stop _) _ => apply rle_stop
  | |- rle (bind _ _) (bind _ _) => apply rle_bind; [|intros ?]
  | |- rle (mapM _ _) (mapM _ _) => apply rle_mapM; intros ?
  | |- rle (foldM _ _ _) (foldM _ _ _) => apply rle_foldM; intros ? ?
  | |- rle (anyM _ _) (anyM _ _) => apply rle_anyM; intros ?
  | |- rle (allM _ _) (allM _ _) => apply rle_allM; intros ?
  | |- rle (filterM _ _) (filterM _ _) => apply rle_filterM; intros ?
  | |- rle (if ?b then _ else _) (if ?b then _ else _) => destruct b
  | |- rle (let '(_, _) := ?x in _) (let '(_, _) := ?x in _) => destruct x
  | |- rle (match ?x with _ => _ end) (match ?x with _ => _ end) => destruct x
  | |- _ => solve [eauto with mono]
  end.
Ltac mono := repeat mono1.

Section Mono.
Context (c1 c2 : cfg) (k1 k2 : kern) (HC : cle c1 c2) (HK : kle k1 k2).
Let Hs := le_sum _ _ HK.
Let Hp := le_prod _ _ HK.
Let Hw := le_pow _ _ HK.
Let Ha := le_abs _ _ HK.
Let Hr := le_repr _ _ HK.
#[local] Hint Resolve Hs Hp Hw Ha Hr : mono.

Lemma py_eq_mono a b : rle (py_eq c1 a b) (py_eq c2 a b).
Proof.
  unfold py_eq. destruct HC as [_ [H|H]]; rewrite H; simpl.
  - destruct (coin a b); [apply rle_stop|]. rewrite andb_false_r. apply rle_refl.
  - destruct (strict c1 && coin a b); auto with mono.
Qed.
Lemma py_eql_mono a b : rle (py_eql c1 a b) (py_eql c2 a b).
Proof.
  unfold py_eql. destruct HC as [_ [H|H]]; rewrite H; simpl.
  - destruct (coinl a b); [apply rle_stop|]. rewrite andb_false_r. apply rle_refl.
  - destruct (strict c1 && coinl a b); auto with mono.
Qed.
#[local] Hint Resolve py_eq_mono py_eql_mono : mono.

Lemma op_add_mono a b : rle (op_add k1 a b) (op_add k2 a b).
Proof. unfold op_add. mono. Qed.
Lemma op_mul_mono a b : rle (op_mul k1 a b) (op_mul k2 a b).
Proof. unfold op_mul. mono. Qed.
#[local] Hint Resolve op_add_mono op_mul_mono : mono.
Lemma op_sub_mono a b : rle (op_sub k1 a b) (op_sub k2 a b).
Proof. unfold op_sub. mono. Qed.
Lemma op_div_mono a b : rle (op_div k1 a b) (op_div k2 a b).
Proof. unfold op_div. mono. Qed.
Lemma op_pow_mono a b : rle (op_pow k1 a b) (op_pow k2 a b).
Proof. unfold op_pow. mono. Qed.
Lemma op_abs_mono a : rle (op_abs k1 a) (op_abs k2 a).
Proof. unfold op_abs. mono. Qed.
Lemma op_neg_mono e : rle (op_neg k1 e) (op_neg k2 e).
Proof.
  induction e as [q| | | | | | |ts IH|ts IH|b x IHb IHx| | |] using expr_ind';
    try apply rle_refl; try apply op_mul_mono.
  cbn [op_neg]. apply rle_bind; [|intros; apply Hs].
  induction IH as [|t l Ht Hl IHl]; [apply rle_refl|]. mono.
Qed.
#[local] Hint Resolve op_sub_mono op_div_mono op_pow_mono op_abs_mono op_neg_mono : mono.

Lemma split_like_mono n l : rle (split_like c1 n l) (split_like c2 n l).
Proof. induction l as [|t l IH]; cbn [split_like]; mono. Qed.
#[local] Hint Resolve split_like_mono : mono.
Lemma combine_sum_go_mono n : forall l, rle (combine_sum_go c1 n l) (combine_sum_go c2 n l).
Proof. induction n as [|n IH]; intros [|t l]; cbn [combine_sum_go]; mono. Qed.
#[local] Hint Resolve combine_sum_go_mono : mono.
Lemma combine_sum_mono l : rle (combine_sum c1 l) (combine_sum c2 l).
Proof. unfold combine_sum. mono. Qed.
#[local] Hint Resolve combine_sum_mono : mono.

Lemma split_base_mono b l : forall x, rle (split_base c1 k1 b x l) (split_base c2 k2 b x l).
Proof. induction l as [|t l IH]; intros x; cbn [split_base]; mono. Qed.
#[local] Hint Resolve split_base_mono : mono.
Lemma combine_prod_go_mono n : forall l, rle (combine_prod_go c1 k1 n l) (combine_prod_go c2 k2 n l).
Proof. induction n as [|n IH]; intros [|t l]; cbn [combine_prod_go]; mono. Qed.
#[local] Hint Resolve combine_prod_go_mono : mono.
Lemma combine_prod_mono l : rle (combine_prod c1 k1 l) (combine_prod c2 k2 l).
Proof. unfold combine_prod. mono. Qed.
#[local] Hint Resolve combine_prod_mono : mono.

Lemma repr_lt_mono a b : rle (repr_lt k1 a b) (repr_lt k2 a b).
Proof. unfold repr_lt. mono. Qed.
#[local] Hint Resolve repr_lt_mono : mono.
Lemma lt_terms_mono a b : rle (lt_terms k1 a b) (lt_terms k2 a b).
Proof. unfold lt_terms. cbv zeta. mono. Qed.
#[local] Hint Resolve lt_terms_mono : mono.
Lemma insert_term_mono x l : rle (insert_term k1 x l) (insert_term k2 x l).
Proof. induction l as [|t l IH]; cbn [insert_term]; mono. Qed.
#[local] Hint Resolve insert_term_mono : mono.
Lemma sort_terms_mono l : rle (sort_terms k1 l) (sort_terms k2 l).
Proof. unfold sort_terms. mono. Qed.
#[local] Hint Resolve sort_terms_mono : mono.

Lemma sum_body_mono l : rle (sum_body c1 k1 l) (sum_body c2 k2 l).
Proof. unfold sum_body. mono. Qed.
Lemma prod_body_mono l : rle (prod_body c1 k1 l) (prod_body c2 k2 l).
Proof. unfold prod_body. mono. Qed.

Lemma int_pow_mono a x : int_pow c1 a x = int_pow c2 a x.
Proof. unfold int_pow. now rewrite (proj1 HC). Qed.
Lemma acc_pow_mono b x : rle (acc_pow c1 k1 b x) (acc_pow c2 k2 b x).
Proof. unfold acc_pow. destruct b, x; try apply rle_refl. rewrite !int_pow_mono. cbv zeta. mono. Qed.
Lemma mult_exp_mono b x y : rle (mult_exp k1 b x y) (mult_exp k2 b x y).
Proof. unfold mult_exp. cbv zeta. mono. Qed.
Lemma find_log_mono b l : forall p, rle (find_log c1 b p l) (find_log c2 b p l).
Proof. induction l as [|t l IH]; intros p; cbn [find_log]; mono. Qed.
Lemma pow_tail_mono b x : rle (pow_tail k1 b x) (pow_tail k2 b x).
Proof. unfold pow_tail. mono. Qed.
#[local] Hint Resolve acc_pow_mono mult_exp_mono find_log_mono pow_tail_mono : mono.
Lemma pow_body_mono b x : rle (pow_body c1 k1 b x) (pow_body c2 k2 b x).
Proof. unfold pow_body. mono. Qed.
Lemma abs_body_mono e : rle (abs_body k1 e) (abs_body k2 e).
Proof. unfold abs_body. mono. Qed.

Lemma prod_term_repr_mono t : rle (prod_term_repr k1 t) (prod_term_repr k2 t).
Proof. unfold prod_term_repr. mono. Qed.
Lemma pow_term_repr_mono t : rle (pow_term_repr k1 t) (pow_term_repr k2 t).
Proof. unfold pow_term_repr. mono. Qed.
Lemma repr_fn_mono s t : rle (repr_fn k1 s t) (repr_fn k2 s t).
Proof. unfold repr_fn. mono. Qed.
Lemma numden_go_mono l : rle (numden_go k1 l) (numden_go k2 l).
Proof. induction l as [|t l IH]; cbn [numden_go]; [apply rle_refl|]. destruct t; mono. Qed.
#[local] Hint Resolve numden_go_mono prod_term_repr_mono pow_term_repr_mono repr_fn_mono : mono.
Lemma numden_mono l : rle (numden k1 l) (numden k2 l).
Proof. unfold numden. mono. Qed.
Lemma log_label_mono b : rle (log_label c1 k1 b) (log_label c2 k2 b).
Proof. unfold log_label. mono. Qed.
Lemma sum_repr_rest_mono l : rle (sum_repr_rest k1 l) (sum_repr_rest k2 l).
Proof. induction l as [|t l IH]; cbn [sum_repr_rest]; mono. Qed.
#[local] Hint Resolve numden_mono log_label_mono sum_repr_rest_mono : mono.
Lemma repr_body_mono e : rle (repr_body c1 k1 e) (repr_body c2 k2 e).
Proof. unfold repr_body. destruct e; mono. Qed.

Lemma build_mono : kle (build c1 k1) (build c2 k2).
Proof.
  constructor; intros; simpl; [apply sum_body_mono | apply prod_body_mono | apply pow_body_mono
    | apply abs_body_mono | apply repr_body_mono].
Qed.
End Mono.

Lemma kbot_le k : kle kbot k.
Proof. constructor; intros; apply rle_stop. Qed.

Theorem K_mono c1 c2 n m : cle c1 c2 -> (n <= m)%nat -> kle (K c1 n) (K c2 m).
Proof.
  intros HC. revert m. induction n as [|n IH]; intros m H; [apply kbot_le|].
  destruct m as [|m]; [lia|]. simpl. apply build_mono; auto. apply IH. lia.
Qed.

Definition faithful (c : cfg) : cfg := {| strict := false; fpow := fpow c |}.
Lemma cle_faithful c : cle c (faithful c).
Proof. split; simpl; auto. Qed.

(** A result that is not a stop is kept by more fuel. *)
Lemma rle_ok {A} (r1 r2 : res A) a : rle r1 r2 -> r1 = Ok a -> r2 = Ok a.
Proof. intros H ->. symmetry. exact H. Qed.
