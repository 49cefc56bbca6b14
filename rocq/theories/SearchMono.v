(** * SearchMono: fuel, strictness and the guards never change a completed step of the search. *)
From Coquelicot Require Import Coquelicot.
From Verif Require Export Search.
Close Scope R_scope.
Open Scope nat_scope.

Lemma catchV_mono {A} (r1 r2 : res A) : rle r1 r2 -> rle (catchV r1) (catchV r2).
Proof. unfold rle. destruct r1 as [a|x|t]; simpl; auto; intros <-; auto. destruct x; simpl; auto. Qed.

(** Without domain guard the unguarded constructors are the constructors. *)
Lemma raw_nodom c n : kle (k_raw (F nodom c n)) (F nodom c n) /\ kle (F nodom c n) (k_raw (F nodom c n)).
Proof.
  split; constructor; intros; simpl; unfold guard, nodom; rewrite ?orb_true_r; simpl;
    try apply rle_refl.
Qed.

Section Mono.
Context (f1 f2 : fkern) (HF : fle f1 f2) (r1 r2 : string -> expr -> bool)
  (HR : forall y u, r1 y u = true -> r2 y u = true) (nm : nat -> string) (n m : nat) (Hnm : n <= m).

Lemma sg_mono {A} b (x y : res A) : rle x y ->
  rle (guard (negb (k_strict f1) || b) x) (guard (negb (k_strict f2) || b) y).
Proof. apply (sgd_mono f1 f2 HF). auto. Qed.
Ltac smono := repeat first [mono1 | apply catchA_mono | apply sg_mono | apply catchV_mono].

Lemma add1_mono h p c : rle (add1 f1 h p c) (add1 f2 h p c).
Proof. unfold add1. smono. Qed.
#[local] Hint Resolve add1_mono : mono.
Lemma additivity_mono h p v ts : rle (additivity f1 h p v ts) (additivity f2 h p v ts).
Proof. unfold additivity. cbv zeta. smono. Qed.
#[local] Hint Resolve additivity_mono : mono.
Lemma add_id_mono k h i v o : rle (add_id f1 k h i v o) (add_id f2 k h i v o).
Proof. unfold add_id. smono. Qed.
#[local] Hint Resolve add_id_mono : mono.

Let pc v e := pull_const_mono f1 f2 HF v e.
Let pf v e := partial_fractions_mono f1 f2 HF n m v e Hnm.
Let pd v e := poly_division_mono f1 f2 HF n m v e Hnm.
Let es e := expand_step_mono f1 f2 HF n m e Hnm.
Let lu v y e := linear_usub_mono f1 f2 HF r1 r2 HR n m v y e Hnm.
#[local] Hint Resolve pc pf pd es lu : mono.

Lemma safe_step_mono s i : rle (safe_step f1 r1 nm n s i) (safe_step f2 r2 nm m s i).
Proof.
  unfold safe_step. destruct s as [h x]. apply rle_bind; [apply rle_refl|intros q]. cbv zeta.
  destruct (nd_e q); smono.
Qed.
#[local] Hint Resolve safe_step_mono : mono.
Lemma safely_mono k : forall k' s i, k <= k' -> rle (safely f1 r1 nm n k s i) (safely f2 r2 nm m k' s i).
Proof.
  induction k as [|k IH]; intros k' s i H; [apply rle_stop|]. destruct k' as [|k']; [lia|]. cbn [safely].
  assert (H' : k <= k') by lia. smono.
Qed.
Lemma check_solvable_mono h i : rle (check_solvable f1 h i) (check_solvable f2 h i).
Proof. unfold check_solvable. smono. Qed.
#[local] Hint Resolve check_solvable_mono : mono.
Lemma backward_mono h i : rle (backward f1 h i) (backward f2 h i).
Proof. unfold backward. pose proof (replaceE_mono f1 f2). smono. Qed.
#[local] Hint Resolve backward_mono : mono.
Lemma climb_mono k : forall h i, rle (climb f1 k h i) (climb f2 k h i).
Proof. induction k as [|k IH]; intros h i; cbn [climb]; smono. Qed.
#[local] Hint Resolve climb_mono : mono.
Lemma go_backwards_mono h : rle (go_backwards f1 h) (go_backwards f2 h).
Proof. unfold go_backwards. smono. Qed.
#[local] Hint Resolve go_backwards_mono : mono.
Let sm s i := safely_mono n m s i Hnm.
#[local] Hint Resolve sm : mono.
Lemma iwh_mono x e v : rle (iwh f1 r1 nm n x e v) (iwh f2 r2 nm m x e v).
Proof. unfold iwh. smono. Qed.
#[local] Hint Resolve iwh_mono : mono.

Lemma bp_i2_mono du w : rle (bp_i2 f1 du w) (bp_i2 f2 du w).
Proof. unfold bp_i2. smono. Qed.
#[local] Hint Resolve bp_i2_mono : mono.
Let ip v e := is_polynomial_mono f1 f2 HF n m v e Hnm.
Let df v e := diffE_mono f1 f2 HF n m v e Hnm.
#[local] Hint Resolve ip df : mono.
Lemma bp_try_mono h x i v e a b : rle (bp_try f1 r1 nm n h x i v e a b) (bp_try f2 r2 nm m h x i v e a b).
Proof. assert (HK : kle (k_raw f1) (k_raw f2)) by apply HF. unfold bp_try. smono. Qed.
#[local] Hint Resolve bp_try_mono : mono.
Lemma bp_check_mono h x i v e : rle (bp_check f1 r1 nm n h x i v e) (bp_check f2 r2 nm m h x i v e).
Proof. unfold bp_check. destruct e; smono. Qed.
#[local] Hint Resolve bp_check_mono : mono.
Lemma bp_funky_mono h i v e c1 i2 : rle (bp_funky f1 h i v e c1 i2) (bp_funky f2 h i v e c1 i2).
Proof. unfold bp_funky. cbv zeta. smono. Qed.
#[local] Hint Resolve bp_funky_mono : mono.
Lemma bp_cyclic2_mono h i mi v e c1 i2 : rle (bp_cyclic2 f1 h i mi v e c1 i2) (bp_cyclic2 f2 h i mi v e c1 i2).
Proof. unfold bp_cyclic2. cbv zeta. smono. Qed.
#[local] Hint Resolve bp_cyclic2_mono : mono.
Lemma bp_forward_mono h i v e t : rle (bp_forward f1 h i v e t) (bp_forward f2 h i v e t).
Proof.
  assert (HK : kle (k_raw f1) (k_raw f2)) by apply HF. destruct t as [[u du] w]. unfold bp_forward. smono.
Qed.
#[local] Hint Resolve bp_forward_mono : mono.

Lemma h_usub_mono k s i o : rle (h_usub f1 nm k s i o) (h_usub f2 nm k s i o).
Proof. unfold h_usub. smono. Qed.
Lemma h_byparts_mono s i v e : rle (h_byparts f1 r1 nm n s i v e) (h_byparts f2 r2 nm m s i v e).
Proof. unfold h_byparts. smono. Qed.
Lemma h_rewtrig_mono h i v e : rle (h_rewtrig f1 h i v e) (h_rewtrig f2 h i v e).
Proof. pose proof (rewrite_trig_mono f1 f2 HF). unfold h_rewtrig. smono. Qed.
Lemma h_inv_mono s i v e : rle (h_inv f1 r1 nm s i v e) (h_inv f2 r2 nm s i v e).
Proof.
  pose proof (inv_usub_mono f1 f2 HF r1 r2 HR). pose proof (simplify_step_mono f1 f2 HF).
  unfold h_inv. cbv zeta. smono.
Qed.
#[local] Hint Resolve h_usub_mono h_byparts_mono h_rewtrig_mono h_inv_mono : mono.

Let pu v y e := poly_usub_mono f1 f2 HF r1 r2 HR n m v y e Hnm.
Let pts e := product_to_sum_unit_mono f1 f2 HF n m e Hnm.
Let tu v y e := trig_usub_mono f1 f2 HF r1 r2 HR v y e.
Let rp e := rewrite_pyth_mono f1 f2 HF e.
Let cs v e := complete_square_mono f1 f2 HF n m v e Hnm.
Let gu v y e := generic_usub_mono f1 f2 HF r1 r2 HR n m v y e Hnm.
#[local] Hint Resolve pu pts tu rp cs gu : mono.
Lemma heuristics_mono s i : rle (heuristics f1 r1 nm n s i) (heuristics f2 r2 nm m s i).
Proof. unfold heuristics. cbv zeta. smono. Qed.
#[local] Hint Resolve heuristics_mono : mono.
Lemma heuristically_mono s i : rle (heuristically f1 r1 nm n s i) (heuristically f2 r2 nm m s i).
Proof. unfold heuristically. cbv zeta. smono. Qed.
#[local] Hint Resolve heuristically_mono : mono.

Lemma next_df_mono k : forall k' h i, k <= k' -> rle (next_df k h i) (next_df k' h i).
Proof.
  induction k as [|k IH]; intros k' h i H; [apply rle_stop|]. destruct k' as [|k']; [lia|]. cbn [next_df].
  assert (H' : k <= k') by lia. smono.
Qed.
Let nd h i := next_df_mono n m h i Hnm.
#[local] Hint Resolve nd : mono.
Lemma cycle_mono bf s i : rle (cycle f1 r1 nm n bf s i) (cycle f2 r2 nm m bf s i).
Proof. unfold cycle. smono. Qed.
#[local] Hint Resolve cycle_mono : mono.
Lemma run_mono bf k : forall s c, rle (run f1 r1 nm n bf k s c) (run f2 r2 nm m bf k s c).
Proof.
  induction k as [|k IH]; intros s [i|]; cbn [run]; smono.
Qed.
#[local] Hint Resolve run_mono : mono.
Let si e := simplifyE_mono f1 f2 HF n m e Hnm.
#[local] Hint Resolve si : mono.
Lemma integrate_mono bf k fin e v : rle (integrate f1 r1 nm n bf k fin e v) (integrate f2 r2 nm m bf k fin e v).
Proof. unfold integrate. smono. Qed.
#[local] Hint Resolve integrate_mono : mono.
Let sb l e := subs_mono f1 f2 HF l e.
#[local] Hint Resolve sb : mono.
Lemma integrate_bounds_mono bf k e v a b :
  rle (integrate_bounds f1 r1 nm n bf k e v a b) (integrate_bounds f2 r2 nm m bf k e v a b).
Proof. unfold integrate_bounds. smono. Qed.
#[local] Hint Resolve integrate_bounds_mono : mono.
Lemma integrate_api_mono bf k e b : rle (integrate_api f1 r1 nm n bf k e b) (integrate_api f2 r2 nm m bf k e b).
Proof. unfold integrate_api. destruct b; smono. Qed.
End Mono.
