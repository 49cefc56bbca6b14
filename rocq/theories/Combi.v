(** * Combi: src/simpy/combinatorics.py, model and proofs (C16, C17). *)
From Verif Require Import Base.
From Coq Require Import Reals Lra Permutation.
Open Scope Z_scope.

(** range(a, b + 1) *)
Definition zrange (a b : Z) : list Z :=
  map (fun i => a + Z.of_nat i) (seq 0 (Z.to_nat (b - a + 1))).

(** generate, combinatorics.py:17-28: [acc] is current_permutation, [cur] current_sum, [rem]
    remaining_numbers; the appended results in order. *)
Fixpoint generate (n : Z) (acc : list Z) (cur : Z) (rem : nat) : list (list Z) :=
  match rem with
  | O => if cur =? n then [acc] else []
  | S r => flat_map (fun v => generate n (acc ++ [v]) (cur + v) r) (zrange 0 (Z.min n (n - cur)))
  end.
(** generate_permutations, combinatorics.py:6-32.  [i] is a number of terms, so not negative. *)
Definition generate_permutations (i : nat) (n : Z) : list (list Z) := generate n [] 0 i.

(** math.factorial for a non-negative argument. *)
Fixpoint factn (k : nat) : Z := match k with O => 1 | S k' => Z.of_nat k * factn k' end.
Definition py_factorial (z : Z) : res Z :=
  if z <? 0 then Raise ValueError else Ok (factn (Z.to_nat z)).

Definition zsum (l : list Z) : Z := fold_right Z.add 0 l.
Definition zprod (l : list Z) : Z := fold_right Z.mul 1 l.

(** multinomial_coefficient, combinatorics.py:35-50.  When the parts exceed [n] the code returns
    a string instead of a number ([inr]). functools.reduce of an empty list raises TypeError. *)
Definition multinomial_coefficient (xs : list Z) (n : Z) : res (Z + string) :=
  if zsum xs >? n then Ok (inr "Invalid input: sum of xs must not exceed n."%string)
  else
    num <- py_factorial n;;
    fs <- mapM py_factorial xs;;
    match xs with
    | [] => Raise TypeError
    | _ =>
        r <- py_factorial (n - zsum xs);;
        Ok (inl (num / (r * zprod fs)))
    end.

(** ** Compositions *)

Lemma zrange_in a b v : In v (zrange a b) <-> a <= v <= b.
Proof.
  unfold zrange. rewrite in_map_iff. split.
  - intros (i & <- & H). apply in_seq in H. lia.
  - intros H. exists (Z.to_nat (v - a)). split; [lia|]. apply in_seq. lia.
Qed.

Lemma NoDup_map_inj {A B} (f : A -> B) l : (forall x y, f x = f y -> x = y) -> NoDup l -> NoDup (map f l).
Proof.
  intros Hf. induction 1 as [|x l H _ IH]; simpl; constructor; auto.
  intros I. apply in_map_iff in I as (y & E & Hy). apply Hf in E. now subst.
Qed.

Lemma zrange_nodup a b : NoDup (zrange a b).
Proof. apply NoDup_map_inj; [intros; lia|apply seq_NoDup]. Qed.

Lemma generate_app n rem : forall acc cur,
  generate n acc cur rem = map (fun l => acc ++ l) (generate n [] cur rem).
Proof.
  induction rem as [|r IH]; intros acc cur; cbn [generate].
  - destruct (cur =? n); simpl; auto. now rewrite app_nil_r.
  - induction (zrange 0 (Z.min n (n - cur))) as [|v l IHl]; simpl; auto.
    simpl in IHl. rewrite map_app, <- IHl, (IH (acc ++ [v])), (IH [v]), map_map. f_equal.
    apply map_ext. intros x. now rewrite <- app_assoc.
Qed.

Lemma generate_S n cur r : generate n [] cur (S r) =
  flat_map (fun v => map (cons v) (generate n [] (cur + v) r)) (zrange 0 (Z.min n (n - cur))).
Proof.
  cbn [generate]. induction (zrange 0 _) as [|v l IH]; simpl; auto. simpl in IH. now rewrite IH, generate_app.
Qed.

Lemma generate_in n rem : forall cur l, 0 <= cur ->
  In l (generate n [] cur rem) <->
  List.length l = rem /\ Forall (fun v => 0 <= v) l /\ cur + zsum l = n.
Proof.
  induction rem as [|r IH]; intros cur l Hc.
  - cbn [generate]. destruct (Z.eqb_spec cur n) as [E|E]; simpl; split; try tauto.
    + intros [<-|[]]. simpl. repeat split; auto. lia.
    + intros (H & _). destruct l; [auto|discriminate].
    + intros (H & _ & H2). destruct l; [simpl in H2; lia|discriminate].
  - rewrite generate_S, in_flat_map. split.
    + intros (v & Hv & Hl). apply zrange_in in Hv. apply in_map_iff in Hl as (l' & <- & Hl').
      apply IH in Hl' as (A & B & C); [|lia]. simpl. repeat split; auto. { constructor; auto; lia. } lia.
    + intros (A & B & C). destruct l as [|v l]; [discriminate|]. inversion B; subst. simpl in *.
      assert (0 <= zsum l) by (clear -H2; induction H2; simpl; lia).
      exists v. split; [apply zrange_in; lia|]. apply in_map. apply IH; [lia|]. repeat split; auto. lia.
Qed.

Theorem generate_permutations_spec i n l :
  In l (generate_permutations i n) <->
  List.length l = i /\ Forall (fun v => 0 <= v) l /\ zsum l = n.
Proof. unfold generate_permutations. rewrite generate_in by lia. simpl. tauto. Qed.

Lemma NoDup_flat_map {A B} (f : A -> list B) l :
  NoDup l -> (forall a, NoDup (f a)) -> (forall a b x, In x (f a) -> In x (f b) -> a = b) ->
  NoDup (flat_map f l).
Proof.
  intros Hl Hf Hd. induction Hl as [|a l Ha _ IH]; simpl; [constructor|].
  assert (D : forall m, NoDup m -> (forall x, In x m -> ~ In x (flat_map f l)) -> NoDup (m ++ flat_map f l)).
  { induction m as [|x m IHm]; simpl; auto. intros Hm Hx. inversion Hm; subst. constructor; auto.
    rewrite in_app_iff. intros [H|H]; auto. apply (Hx x); auto. }
  apply D; auto. intros x Hx Hx'. apply in_flat_map in Hx' as (b & Hb & Hxb).
  rewrite (Hd _ _ _ Hx Hxb) in Ha. auto.
Qed.

Theorem generate_permutations_nodup i n : NoDup (generate_permutations i n).
Proof.
  unfold generate_permutations. generalize 0 as cur. induction i as [|r IH]; intros cur.
  - cbn [generate]. destruct (cur =? n); repeat constructor; auto.
  - rewrite generate_S. apply NoDup_flat_map.
    + apply zrange_nodup.
    + intros v. apply NoDup_map_inj; auto. now intros x y [= ->].
    + intros a b x Ha Hb. apply in_map_iff in Ha as (? & <- & _). apply in_map_iff in Hb as (? & E & _).
      now injection E.
Qed.

(** ** Factorials and multinomial coefficients *)

Lemma factn_fact k : factn k = Z.of_nat (fact k).
Proof.
  induction k as [|k IH]; [reflexivity|]. change (factn (S k)) with (Z.of_nat (S k) * factn k).
  change (fact (S k)) with (S k * fact k)%nat. rewrite IH. lia.
Qed.
Lemma factn_S k : factn (S k) = Z.of_nat (S k) * factn k. Proof. reflexivity. Qed.
Lemma factn_pos k : 0 < factn k.
Proof. rewrite factn_fact. pose proof (lt_O_fact k). lia. Qed.

Lemma fact_divide a : forall b, (factn a * factn b | factn (a + b)).
Proof.
  induction a as [|a IHa]; intros b; [change (factn 0) with 1; rewrite Z.mul_1_l; reflexivity|].
  induction b as [|b IHb].
  - rewrite Nat.add_0_r. change (factn 0) with 1. rewrite Z.mul_1_r. reflexivity.
  - replace (S a + S b)%nat with (S (S a + b)) by lia. rewrite (factn_S (S a + b)).
    replace (Z.of_nat (S (S a + b))) with (Z.of_nat (S a) + Z.of_nat (S b)) by lia.
    rewrite Z.mul_add_distr_r. apply Z.divide_add_r.
    + rewrite (factn_S a), <- Z.mul_assoc. apply Z.mul_divide_mono_l.
      replace (S a + b)%nat with (a + S b)%nat by lia. apply IHa.
    + rewrite (factn_S b). replace (factn (S a) * (Z.of_nat (S b) * factn b))
        with (Z.of_nat (S b) * (factn (S a) * factn b)) by ring.
      apply Z.mul_divide_mono_l. apply IHb.
Qed.

Definition zfact (z : Z) : Z := factn (Z.to_nat z).

Lemma zsum_nonneg l : Forall (fun v => 0 <= v) l -> 0 <= zsum l.
Proof. induction 1; simpl; lia. Qed.

Lemma multi_divide xs : Forall (fun v => 0 <= v) xs -> forall r, 0 <= r ->
  (zfact r * zprod (map zfact xs) | zfact (r + zsum xs)).
Proof.
  induction 1 as [|x xs Hx Hxs IH]; intros r Hr; simpl.
  - rewrite Z.mul_1_r, Z.add_0_r. reflexivity.
  - specialize (IH (r + x) ltac:(lia)). eapply Z.divide_trans; [|replace (r + (x + zsum xs)) with (r + x + zsum xs) by ring; exact IH].
    rewrite Z.mul_assoc. apply Z.mul_divide_mono_r.
    unfold zfact. replace (Z.to_nat (r + x)) with (Z.to_nat r + Z.to_nat x)%nat by lia. apply fact_divide.
Qed.

Lemma mapM_factorial xs : Forall (fun v => 0 <= v) xs -> mapM py_factorial xs = Ok (map zfact xs).
Proof.
  induction 1 as [|x xs Hx _ IH]; simpl; auto. unfold py_factorial at 1.
  destruct (Z.ltb_spec x 0); [lia|]. simpl. rewrite IH. reflexivity.
Qed.

Lemma zprod_fact_pos xs : 0 < zprod (map zfact xs).
Proof. induction xs as [|x xs IH]; simpl; [lia|]. pose proof (factn_pos (Z.to_nat x)). unfold zfact at 1. nia. Qed.

(** The result times the product of the factorials is [n!] exactly. *)
Theorem multinomial_spec xs n : xs <> [] -> Forall (fun v => 0 <= v) xs -> zsum xs <= n ->
  exists m, multinomial_coefficient xs n = Ok (inl m) /\
    m * (zprod (map zfact xs) * zfact (n - zsum xs)) = zfact n.
Proof.
  intros Hne Hx Hs. unfold multinomial_coefficient. rewrite Z.gtb_ltb.
  destruct (Z.ltb_spec n (zsum xs)); [lia|]. pose proof (zsum_nonneg _ Hx).
  unfold py_factorial at 1. destruct (Z.ltb_spec n 0); [lia|]. cbn [bind].
  rewrite (mapM_factorial _ Hx). cbn [bind]. destruct xs as [|x xs]; [congruence|].
  set (l := x :: xs) in *. unfold py_factorial. destruct (Z.ltb_spec (n - zsum l) 0); [lia|]. cbn [bind].
  eexists. split; [reflexivity|]. fold (zfact n). fold (zfact (n - zsum l)).
  destruct (multi_divide l Hx (n - zsum l)) as [m Hm]; [lia|].
  replace (n - zsum l + zsum l) with n in Hm by ring. rewrite Hm.
  pose proof (zprod_fact_pos l). pose proof (factn_pos (Z.to_nat (n - zsum l))).
  rewrite Z.div_mul; [ring|]. change (factn (Z.to_nat (n - zsum l))) with (zfact (n - zsum l)) in *. nia.
Qed.

Lemma multinomial_too_big xs n : n < zsum xs -> exists s, multinomial_coefficient xs n = Ok (inr s).
Proof.
  intros H. unfold multinomial_coefficient. rewrite Z.gtb_ltb.
  destruct (Z.ltb_spec n (zsum xs)); [eauto|lia].
Qed.
Lemma multinomial_empty n : 0 <= n -> multinomial_coefficient [] n = Raise TypeError.
Proof.
  intros H. unfold multinomial_coefficient. simpl. rewrite Z.gtb_ltb. destruct (Z.ltb_spec n 0); [lia|].
  unfold py_factorial. destruct (Z.ltb_spec n 0); [lia|]. reflexivity.
Qed.

(** ** Multinomial theorem *)
Open Scope R_scope.

(** The coefficient as computed (0 where the code does not return a number). *)
Definition coeff (p : list Z) (n : Z) : Z :=
  match multinomial_coefficient p n with Ok (inl m) => m | _ => 0%Z end.

Fixpoint powers (ts : list R) (p : list Z) : R :=
  match ts, p with
  | t :: ts', v :: p' => t ^ Z.to_nat v * powers ts' p'
  | _, _ => 1
  end.
Definition lsum (l : list R) : R := fold_right Rplus 0 l.

Lemma lsum_app l m : lsum (l ++ m) = lsum l + lsum m.
Proof. induction l as [|x l IH]; simpl; [ring|]. rewrite IH. ring. Qed.
Lemma lsum_scale c l : lsum (map (fun x => c * x) l) = c * lsum l.
Proof. induction l as [|x l IH]; simpl; [ring|]. rewrite IH. ring. Qed.
Lemma lsum_flat {A B} (f : A -> list B) (g : B -> R) l :
  lsum (map g (flat_map f l)) = lsum (map (fun a => lsum (map g (f a))) l).
Proof. induction l as [|x l IH]; simpl; auto. rewrite map_app, lsum_app, IH. auto. Qed.
Lemma lsum_ext {A} (f g : A -> R) l : (forall a, In a l -> f a = g a) -> lsum (map f l) = lsum (map g l).
Proof.
  induction l as [|x l IH]; simpl; auto. intros H. rewrite (H x), IH; auto.
Qed.

Lemma lsum_seq (f : nat -> R) n : lsum (map f (seq 0 (S n))) = sum_f_R0 f n.
Proof.
  induction n as [|n IH]; [simpl; ring|]. rewrite seq_S, map_app, lsum_app, IH. simpl. ring.
Qed.

Lemma INR_fact_neq k : INR (fact k) <> 0. Proof. apply INR_fact_neq_0. Qed.

Fixpoint pfact (p : list Z) : R := match p with [] => 1 | v :: r => INR (fact (Z.to_nat v)) * pfact r end.
Lemma pfact_neq p : pfact p <> 0.
Proof. induction p as [|v p IH]; simpl; [lra|]. apply Rmult_integral_contrapositive. split; auto. apply INR_fact_neq. Qed.

Lemma generate_shift rem : forall n c cur, (0 <= cur)%Z ->
  generate (n + c)%Z [] (cur + c)%Z rem = generate n [] cur rem \/ (c < 0)%Z.
Proof.
  induction rem as [|r IH]; intros n c cur Hc; destruct (Z_lt_dec c 0) as [Hn|Hn]; auto; left.
  - cbn [generate]. replace (cur + c =? n + c)%Z with (cur =? n)%Z; auto.
    destruct (Z.eqb_spec cur n), (Z.eqb_spec (cur + c) (n + c)); auto; lia.
  - rewrite !generate_S. replace (Z.min (n + c) (n + c - (cur + c))) with (Z.min n (n - cur)) by lia.
    assert (E : forall v, In v (zrange 0 (Z.min n (n - cur))) ->
      map (cons v) (generate (n + c) [] (cur + c + v) r) = map (cons v) (generate n [] (cur + v) r)).
    { intros v Hv. apply zrange_in in Hv. f_equal.
      replace (cur + c + v)%Z with (cur + v + c)%Z by ring.
      destruct (IH n c (cur + v)%Z) as [E|E]; [lia|auto|lia]. }
    induction (zrange 0 (Z.min n (n - cur))) as [|v l IHl]; simpl; auto.
    rewrite E by (left; auto). f_equal. apply IHl. intros; apply E; right; auto.
Qed.

Lemma gp_S i (n : nat) : generate_permutations (S i) (Z.of_nat n) =
  flat_map (fun v => map (cons (Z.of_nat v)) (generate_permutations i (Z.of_nat (n - v)))) (seq 0 (S n)).
Proof.
  unfold generate_permutations. rewrite generate_S. unfold zrange.
  replace (Z.to_nat (Z.min (Z.of_nat n) (Z.of_nat n - 0) - 0 + 1)) with (S n) by lia.
  assert (G : forall l, Forall (fun v => (v <= n)%nat) l ->
    flat_map (fun v : Z => map (cons v) (generate (Z.of_nat n) [] (0 + v) i)) (map (fun i0 : nat => (0 + Z.of_nat i0)%Z) l) =
    flat_map (fun v : nat => map (cons (Z.of_nat v)) (generate (Z.of_nat (n - v)) [] 0 i)) l).
  { induction 1 as [|v l Hv _ IH]; auto. cbn [map flat_map]. rewrite IH. f_equal.
    rewrite !Z.add_0_l. f_equal.
    destruct (generate_shift i (Z.of_nat (n - v)) (Z.of_nat v) 0) as [E|E]; [lia| |lia].
    rewrite <- E. f_equal. lia. }
  apply G. apply Forall_forall. intros v Hv. apply in_seq in Hv. lia.
Qed.

Lemma multi_thm ts : forall n,
  lsum (map (fun p => INR (fact n) / pfact p * powers ts p) (generate_permutations (List.length ts) (Z.of_nat n)))
  = (lsum ts) ^ n.
Proof.
  induction ts as [|t ts IH]; intros n.
  - simpl List.length. unfold generate_permutations. cbn [generate]. destruct n as [|n]; simpl.
    + field.
    + ring.
  - cbn [List.length]. rewrite gp_S, lsum_flat.
    change (lsum (t :: ts)) with (t + lsum ts). rewrite binomial, <- lsum_seq. apply lsum_ext.
    intros v Hv. apply in_seq in Hv. rewrite map_map, <- IH, <- lsum_scale, map_map.
    apply lsum_ext. intros p _. cbn [powers pfact]. rewrite Nat2Z.id. unfold C. field.
    repeat split; auto using INR_fact_neq, pfact_neq.
Qed.

Lemma IZR_zfact z : IZR (zfact z) = INR (fact (Z.to_nat z)).
Proof. unfold zfact. rewrite factn_fact. now rewrite <- INR_IZR_INZ. Qed.
Lemma IZR_zprod_fact p : IZR (zprod (map zfact p)) = pfact p.
Proof. induction p as [|v p IH]; simpl; auto. rewrite mult_IZR, IH, IZR_zfact. auto. Qed.

Lemma coeff_real p n : p <> [] -> Forall (fun v => (0 <= v)%Z) p -> zsum p = Z.of_nat n ->
  IZR (coeff p (Z.of_nat n)) = INR (fact n) / pfact p.
Proof.
  intros Hne Hp Hs. destruct (multinomial_spec p (Z.of_nat n) Hne Hp) as (m & Hm & E); [lia|].
  unfold coeff. rewrite Hm. apply (f_equal IZR) in E. rewrite !mult_IZR, !IZR_zfact, IZR_zprod_fact in E.
  rewrite Nat2Z.id in E. replace (Z.to_nat (Z.of_nat n - zsum p)) with 0%nat in E by lia. simpl in E.
  rewrite <- E. field. apply pfact_neq.
Qed.

(** Summing coefficient * powers over all compositions gives the power of the sum. *)
Theorem multinomial_theorem (ts : list R) (n : Z) : ts <> [] -> (0 <= n)%Z ->
  lsum (map (fun p => IZR (coeff p n) * powers ts p) (generate_permutations (List.length ts) n))
  = (lsum ts) ^ Z.to_nat n.
Proof.
  intros Hne Hn. rewrite <- (Z2Nat.id n) by auto. rewrite Nat2Z.id, <- multi_thm.
  apply lsum_ext. intros p Hp. apply generate_permutations_spec in Hp as (A & B & C).
  rewrite coeff_real; auto. intros ->. destruct ts; [congruence|discriminate].
Qed.

(** A concrete case: the hypotheses are met and the values are the expected ones. *)
Example compositions_3_2 : generate_permutations 3 2 =
  [[0;0;2];[0;1;1];[0;2;0];[1;0;1];[1;1;0];[2;0;0]]%Z.
Proof. reflexivity. Qed.
Example multinomial_2_1_1 : multinomial_coefficient [2;1;1]%Z 4 = Ok (inl 12%Z).
Proof. reflexivity. Qed.
