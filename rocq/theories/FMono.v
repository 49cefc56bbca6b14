(** * FMono: fuel, strictness and the domain guard never change a completed result. *)
From Verif Require Export Funcs.

Record fle (f1 f2 : fkern) : Prop := {
  fle_k :> kle f1 f2;
  fle_eq : forall a b, rle (k_eq f1 a b) (k_eq f2 a b);
  fle_log : forall i b, rle (k_log f1 i b) (k_log f2 i b);
  fle_trig : forall f i, rle (k_trig f1 f i) (k_trig f2 f i);
  fle_strict : k_strict f2 = true -> k_strict f1 = true;
  fle_node : forall t, k_node f1 t = true -> k_node f2 t = true;
  fle_raw : kle (k_raw f1) (k_raw f2) }.

Lemma guard_mono {A} b1 b2 (r1 r2 : res A) : (b1 = true -> b2 = true) -> rle r1 r2 ->
  rle (guard b1 r1) (guard b2 r2).
Proof. destruct b1; simpl; intros H Hr; [rewrite H; auto | apply rle_stop]. Qed.

#[export] Hint Resolve guard_mono : mono.

Definition dom_le (d1 d2 : expr -> bool) : Prop := forall t, d1 t = true -> d2 t = true.

Lemma gk_mono d1 d2 k1 k2 : dom_le d1 d2 -> kle k1 k2 -> kle (gk d1 k1) (gk d2 k2).
Proof.
  intros HD HK. constructor; simpl; intros; try apply HK.
  apply guard_mono; [|apply HK]. intros H. apply orb_prop in H as [H|H]; rewrite ?H; auto.
  rewrite (HD _ H). apply orb_true_r.
Qed.

#[export] Hint Resolve op_add_mono op_mul_mono op_sub_mono op_div_mono op_pow_mono op_abs_mono
  op_neg_mono le_sum le_prod le_pow le_abs le_repr fle_eq fle_log fle_trig fle_k fle_raw : mono.

Section FMono.
Context (k1 k2 : kern) (HK : kle k1 k2).

Lemma sqrtE_mono e : rle (sqrtE k1 e) (sqrtE k2 e).
Proof. unfold sqrtE. mono. Qed.
#[local] Hint Resolve sqrtE_mono : mono.
Lemma over_sqrt2_mono z : rle (over_sqrt2 k1 z) (over_sqrt2 k2 z).
Proof. unfold over_sqrt2. mono. Qed.
Lemma sqrt3_2_mono : rle (sqrt3_2 k1) (sqrt3_2 k2).
Proof. unfold sqrt3_2. mono. Qed.
Lemma nsqrt3_2_mono : rle (nsqrt3_2 k1) (nsqrt3_2 k2).
Proof. unfold nsqrt3_2. mono. Qed.
#[local] Hint Resolve over_sqrt2_mono sqrt3_2_mono nsqrt3_2_mono : mono.
Lemma sin_lookup_mono q : rle (lookup_q q (sin_table k1)) (lookup_q q (sin_table k2)).
Proof. unfold sin_table. cbn [lookup_q]. mono. Qed.
Lemma cos_lookup_mono q : rle (lookup_q q (cos_table k1)) (lookup_q q (cos_table k2)).
Proof. unfold cos_table. cbn [lookup_q]. mono. Qed.
#[local] Hint Resolve sin_lookup_mono cos_lookup_mono : mono.
Lemma special_mono f q : rle (special k1 f q) (special k2 f q).
Proof. unfold special. cbv zeta. destruct f; mono. Qed.
Lemma double_simp_mono f g x : rle (double_simp k1 f g x) (double_simp k2 f g x).
Proof. unfold double_simp. cbv zeta. destruct f, g; mono. Qed.
Lemma find_period_mono p l : rle (find_period k1 p l) (find_period k2 p l).
Proof. induction l as [|t l IH]; cbn [find_period]; mono. Qed.
#[local] Hint Resolve special_mono double_simp_mono find_period_mono : mono.
Lemma trig_inner_mono f i : rle (trig_inner k1 f i) (trig_inner k2 f i).
Proof. unfold trig_inner. destruct i; mono. Qed.
#[local] Hint Resolve trig_inner_mono : mono.
Lemma trig_base_mono f i : rle (trig_base k1 f i) (trig_base k2 f i).
Proof. unfold trig_base. cbv zeta. mono. Qed.
#[local] Hint Resolve trig_base_mono : mono.
Lemma mk_trig_mono n : forall m f i, (n <= m)%nat -> rle (mk_trig k1 n f i) (mk_trig k2 m f i).
Proof.
  induction n as [|n IH]; intros m f i H; [apply rle_stop|]. destruct m as [|m]; [lia|].
  cbn [mk_trig]. assert (H' : (n <= m)%nat) by lia. destruct f; mono.
Qed.
End FMono.

Lemma mk_log_mono c1 c2 i b : cle c1 c2 -> rle (mk_log c1 i b) (mk_log c2 i b).
Proof. intros HC. pose proof (py_eq_mono c1 c2 HC). unfold mk_log. mono. Qed.

(** More fuel, a laxer guard and the faithful mode keep every completed result. *)
Theorem F_mono d1 d2 c1 c2 n m : dom_le d1 d2 -> cle c1 c2 -> (n <= m)%nat ->
  fle (F d1 c1 n) (F d2 c2 m).
Proof.
  intros HD HC Hn. 
  assert (HK : kle (gk d1 (K c1 n)) (gk d2 (K c2 m))) by (apply gk_mono; auto; now apply K_mono).
  constructor; simpl; auto.
  - now apply py_eq_mono.
  - intros. apply guard_mono; auto. now apply mk_log_mono.
  - intros. apply guard_mono; [|now apply mk_trig_mono].
    intros H. apply orb_prop in H as [H|H]; rewrite ?H; auto. rewrite (HD _ H). apply orb_true_r.
  - intros H. destruct HC as [_ [HC|HC]]; auto. congruence.
  - now apply K_mono.
Qed.

Lemma dom_le_nodom d : dom_le d nodom.
Proof. intros t _. reflexivity. Qed.

Corollary F_faithful d c n m : (n <= m)%nat -> fle (F d c n) (F nodom (faithful c) m).
Proof. intros. apply F_mono; auto using dom_le_nodom, cle_faithful. Qed.

Lemma fle_refl f : fle f f.
Proof. constructor; intros; auto using rle_refl, kle_refl. Qed.
