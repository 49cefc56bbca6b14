(** * LinInt: integrate on polynomials in v plus combinations of sin(a) and cos(a), a = k v + b (for C96). *)
From Coquelicot Require Import Coquelicot.
From Verif Require Import Base Expr Kernel Mono Funcs FMono Calc Sem RealLemmas Sound Atoms Combi Expand Factor Regex Simp TrigSimp Table Trans
  Search SearchMono SearchSound Shape PropsG Frag FragNum FragLib FragX FragXLib FragG IntTree2 TrigTot PropsW LinTot.
From Coq Require Import Permutation Lqa.
Close Scope R_scope.
Open Scope nat_scope.

(** ** Products that contain the variable once or twice *)
Section Comb.
Context (c : cfg) (k : kern) (v : string).
Lemma pe_vv : py_eq c (ESym v) (ESym v) = Ok true.
Proof. unfold py_eq. cbn [coin eeqb]. now rewrite andb_false_r, String.eqb_refl. Qed.
Lemma pe_vq q : py_eq c (ESym v) (ERat q) = Ok false.
Proof. unfold py_eq. cbn [coin eeqb]. now rewrite andb_false_r. Qed.
Lemma isq_f q p : ~ (q == p)%Q -> isq (ERat q) p = false.
Proof. intros H. cbn [isq]. apply Bool.not_true_is_false. rewrite Qeq_bool_iff. exact H. Qed.
Lemma comb_rat m q l nc cs : split_base c k (ERat q) (ERat 1) l = Ok (false, ERat 1, l) -> combine_prod_go c k m l = Ok (nc, cs) ->
  combine_prod_go c k (S m) (ERat q :: l) = Ok (nc, ERat q :: cs).
Proof.
  intros S1 E2. change (combine_prod_go c k (S m) (ERat q :: l)) with
    ('(h, ex, rest) <- split_base c k (ERat q) (ERat 1) l;;
     if h : bool then (if isq ex 0 then combine_prod_go c k m rest else if isq ex 1 then p <- combine_prod_go c k m rest;; Ok (add_term (ERat q) p)
       else t' <- k_pow k (ERat q) ex;; p <- combine_prod_go c k m rest;; Ok (add_term t' p))
     else p <- combine_prod_go c k m rest;; Ok (add_term (ERat q) p)).
  rewrite S1. cbn [bind]. rewrite E2. reflexivity.
Qed.
Lemma comb_quot q : prod_body c k [EProd [ERat q; ESym v]; EPow (ESym v) (ERat (-1))] = Ok (ERat (if Qeq_bool q 1 then 1 else q)).
Proof.
  unfold prod_body, combine_prod, flat_prod. cbn [flat_map flat_prod1 List.app List.length].
  assert (E2 : combine_prod_go c k 2 [ESym v; EPow (ESym v) (ERat (-1))] = Ok ([], [])).
  { cbn [combine_prod_go decon_pow split_base]. rewrite pe_vv. reflexivity. }
  rewrite (comb_rat 2 q _ _ _) with (2 := E2); [|cbn [split_base decon_pow]; rewrite pe_vq; reflexivity].
  cbn [bind acc_prod isq]. destruct (Qeq_bool q 0) eqn:E0.
  - assert (E1 : Qeq_bool q 1 = false). { apply Bool.not_true_is_false. intros E1. apply Qeq_bool_eq in E0, E1. rewrite E0 in E1. discriminate. } now rewrite E1.
  - destruct (Qeq_bool q 1); reflexivity.
Qed.
Lemma comb_vv : prod_body c k [ESym v; EPow (ESym v) (ERat (-1))] = Ok (ERat 1).
Proof.
  unfold prod_body, combine_prod, flat_prod. cbn [flat_map flat_prod1 List.app List.length].
  cbn [combine_prod_go decon_pow is_acc split_base]. rewrite pe_vv. reflexivity.
Qed.
Lemma comb_0v : prod_body c k [ERat 0; ESym v] = Ok (ERat 0).
Proof.
  unfold prod_body, combine_prod, flat_prod. cbn [flat_map flat_prod1 List.app List.length].
  rewrite (comb_rat 1 0 [ESym v] [ESym v] []); [reflexivity| |reflexivity]. cbn [split_base decon_pow]. rewrite pe_vq. reflexivity.
Qed.
End Comb.

Section Lin.
Context (v : string) (Hv : v <> ""%string) (dom : expr -> bool) (c : cfg) (n : nat).
Notation fk := (F dom c (16 + n)).
Lemma quot_lterm a : lterm v a -> exists q, op_div (K c (16 + n)) a (ESym v) = Ok (ERat q).
Proof.
  intros [->|(k & _ & _ & ->)]; unfold op_div; change (k_pow (K c (16 + n)) (ESym v) (ERat (-1))) with (Ok (EPow (ESym v) (ERat (-1)))); cbn [bind];
    change (k_prod (K c (16 + n))) with (prod_body c (K c (15 + n))); [rewrite comb_vv|rewrite comb_quot]; eauto.
Qed.
Lemma lterm_in a : lterm v a -> contains v a = true.
Proof. intros [->|(k & _ & _ & ->)]; cbn; now rewrite String.eqb_refl. Qed.
Lemma linear_of_lin i : lin v i -> i <> ESym v -> linear_of fk v i = Ok (Some (i, None)).
Proof.
  intros (_ & [H|(a & b & H & Nb & ->)]) N.
  - destruct (quot_lterm i H) as (q & E). destruct H as [->|(k & _ & _ & ->)]; [congruence|]. unfold linear_of. change (k_raw fk) with (K c (16 + n)). rewrite E. reflexivity.
  - unfold linear_of. change (k_raw fk) with (K c (16 + n)). cbn [allM]. destruct (quot_lterm a H) as (q & E). rewrite (lterm_in a H), E. reflexivity.
Qed.
Lemma diff_lterm d a : lterm v a -> exists q, ~ (q == 0)%Q /\ diffE fk (S (S d)) v a = Ok (ERat q).
Proof.
  intros [->|(k & K0 & K1 & ->)].
  - exists 1%Q. split; [discriminate|]. cbn [diffE]. now rewrite String.eqb_refl.
  - destruct (k_prod_rats c (14 + n) [ERat 1; ERat k]) as (q & E & Eq); [repeat constructor|].
    destruct (k_sum_rats c (15 + n) [ERat 0; ERat q]) as (p & E2 & Ep); [repeat constructor|].
    exists p. split.
    + cbn in Eq, Ep. intros Z. apply K0. rewrite Z in Ep. lra.
    + cbn [diffE diff_prod List.app]. rewrite String.eqb_refl. cbn [bind].
      change (k_prod fk [ERat 0; ESym v]) with (prod_body c (K c (15 + n)) [ERat 0; ESym v]). rewrite comb_0v. cbn [bind].
      change (k_prod fk) with (k_prod (K c (16 + n))). change (k_sum fk) with (k_sum (K c (16 + n))).
      change (K c (2 + (14 + n))) with (K c (16 + n)) in E. change (K c (S (15 + n))) with (K c (16 + n)) in E2. rewrite E. cbn [bind]. exact E2.
Qed.
Lemma lterm_sum a : lterm v a -> is_sum a = false /\ is_rat a = false.
Proof. intros [->|(k & _ & _ & ->)]; auto. Qed.
Lemma diff_lin d i : lin v i -> exists q, ~ (q == 0)%Q /\ diffE fk (S (S (S d))) v i = Ok (ERat q).
Proof.
  intros (_ & [H|(a & b & H & Nb & ->)]); [now apply diff_lterm|]. destruct (diff_lterm d a H) as (q & Nq & E).
  destruct (k_sum_rats c (15 + n) [ERat q; ERat 0]) as (p & E2 & Ep); [repeat constructor|]. exists p. split.
  - cbn in Ep. intros Z. apply Nq. rewrite Z in Ep. lra.
  - change (diffE fk (S (S (S d))) v (ESum [a; ERat b])) with (ts' <- mapM (diffE fk (S (S d)) v) [a; ERat b];; k_sum fk ts'). cbn [mapM]. rewrite E. cbn [bind diffE].
    exact E2.
Qed.

(** replacing the argument *)
Lemma coin_lin i : lin v i -> coin i i = false /\ forall f, coin (ETrig f i) i = false.
Proof.
  intros (_ & [[->|(k & _ & _ & ->)]|(a & b & [->|(k & _ & _ & ->)] & _ & ->)]); split; intros; reflexivity.
Qed.
Lemma eq_lin i : lin v i -> k_eq fk i i = Ok true.
Proof. intros H. change (k_eq fk i i) with (py_eq c i i). unfold py_eq. rewrite (proj1 (coin_lin i H)), andb_false_r. f_equal. apply eeqb_refl. Qed.
Lemma eq_trig f i : lin v i -> k_eq fk (ETrig f i) i = Ok false.
Proof.
  intros H. change (k_eq fk (ETrig f i) i) with (py_eq c (ETrig f i) i). unfold py_eq. rewrite (proj2 (coin_lin i H) f), andb_false_r. f_equal.
  destruct H as (_ & [[->|(k & _ & _ & ->)]|(a & b & _ & _ & ->)]); reflexivity.
Qed.
Lemma replace_arg y f i : f = Sin \/ f = Cos -> lin v i -> replaceE fk (ETrig f i) i (ESym y) = Ok (ETrig f (ESym y)).
Proof.
  intros Hf H. unfold replaceE, replace_factory, replace_factory_list. set (p := first_cond _).
  assert (P1 : p (ETrig f i) = Ok None) by (unfold p; cbn [first_cond]; rewrite (eq_trig f i H); reflexivity).
  assert (P2 : p i = Ok (Some (ESym y, true))) by (unfold p; cbn [first_cond]; rewrite (eq_lin i H); reflexivity).
  assert (E : walk fk p i = Ok (ESym y, true)) by (destruct i; cbn [walk]; rewrite P2; reflexivity).
  cbn [walk]. rewrite P1. cbn [bind]. rewrite E. cbn [bind]. destruct Hf as [-> | ->]; reflexivity.
Qed.
End Lin.

Ltac qz G := repeat match type of G with (_ * _ == 0)%Q => apply Qmult_integral in G as [G|G] end; try contradiction; try discriminate.
(** ** In a fresh variable: multiples of sin(y) and cos(y) *)
Section Fresh.
Context (y : string) (Hy : y <> ""%string) (dom : expr -> bool) (c : cfg) (n : nat).
Notation fk := (F dom c (16 + n)).
Inductive cy : expr -> Prop :=
| cy_t f : f = Sin \/ f = Cos -> cy (ETrig f (ESym y))
| cy_qt q f : ~ (q == 0)%Q -> f = Sin \/ f = Cos -> cy (EProd [ERat q; ETrig f (ESym y)])
| cy_tq q f : ~ (q == 0)%Q -> f = Sin \/ f = Cos -> cy (EProd [ETrig f (ESym y); ERat q]).
Hint Constructors cy LinTot.tx LinTot.tmono : core.
Lemma lin_sym : lin y (ESym y).
Proof. split; [reflexivity|]. left. now left. Qed.
Lemma cy_tmono t : cy t -> tmono y t.
Proof. intros [f Hf|q f Z Hf|q f Z Hf]; auto using lin_sym. Qed.
Lemma cy_xs t : cy t -> exists f, (f = Sin \/ f = Cos) /\ xs t = [ETrig f (ESym y)].
Proof. intros [f Hf|q f Z Hf|q f Z Hf]; exists f; auto. Qed.
Lemma prod_cy l f : Forall (tmono y) l -> f = Sin \/ f = Cos -> flat_map xs l = [ETrig f (ESym y)] -> ~ (coefprod l == 0)%Q ->
  exists r, k_prod fk l = Ok r /\ cy r.
Proof.
  intros Fl Hf Ex Nc. destruct (tprod y Hy c (4 + n) l Fl) as (r & E & M); [rewrite Ex; simpl; lia|].
  change (K c (12 + (4 + n))) with (K c (16 + n)) in E. exists r. split; [exact E|].
  assert (Ef : filter (selb nonrat) (flat_prod l) = flat_map xs l).
  { clear. induction l as [|t l IH]; auto. unfold flat_prod in *. cbn [flat_map]. rewrite filter_app, IH. reflexivity. }
  destruct (prod_selJ (tb y) (tb_opaque y Hy) natx natx_C natx_A (natx_1 y) nonrat nonrat_rat c (4 + n) l) as (r' & E' & _ & _ & _ & H).
  { eapply Forall_impl; [|exact Fl]. intros t. now apply tmono_mono. }
  { rewrite Ef, Ex. repeat constructor; auto. }
  change (K c (6 + 6 + (4 + n))) with (K c (16 + n)) in E'. rewrite E in E'. injection E' as <-. rewrite Ef, Ex in H. destruct H as [P|(q & _ & _ & Z)]; [|contradiction].
  change (Permutation (xs r) [ETrig f (ESym y)]) in P. apply Permutation_sym, Permutation_length_1_inv in P.
  destruct M as [q|x T|q x Z T|q x Z T].
  - discriminate.
  - unfold xs in P. destruct (tx_facts y x T) as (_ & _ & E1 & S1 & _). rewrite E1 in P. cbn [filter] in P. rewrite S1 in P. injection P as ->. auto.
  - assert (x = ETrig f (ESym y)) by (destruct T; cbn in P; congruence). subst x. auto.
  - assert (x = ETrig f (ESym y)) by (destruct T; cbn in P; congruence). subst x. auto.
Qed.
Lemma mul_cy q t : ~ (q == 0)%Q -> cy t -> exists r, op_mul fk (ERat q) t = Ok r /\ cy r.
Proof.
  intros Nq C. destruct (cy_xs t C) as (f & Hf & Ex). destruct (prod_cy [ERat q; t] f) as (r & E & Cr); auto.
  - constructor; auto. constructor; auto using cy_tmono.
  - cbn [flat_map]. change (xs (ERat q)) with (@nil expr). rewrite Ex. reflexivity.
  - destruct C as [g Hg|p g Z Hg|p g Z Hg]; cbn; intros G; qz G.
  - exists r. split; [|exact Cr]. destruct C; exact E.
Qed.
Lemma div_cy q f : ~ (q == 0)%Q -> f = Sin \/ f = Cos -> exists r, op_div fk (ETrig f (ESym y)) (ERat q) = Ok r /\ cy r.
Proof.
  intros Nq Hf. unfold op_div.
  assert (Ef : k_pow fk (ERat q) (ERat (-1)) = k_pow (K c (16 + n)) (ERat q) (ERat (-1))).
  { change (k_pow fk (ERat q) (ERat (-1))) with (guard (pow_always (ERat q) (ERat (-1)) || dom (EPow (ERat q) (ERat (-1)))) (k_pow (K c (16 + n)) (ERat q) (ERat (-1)))).
    assert (A : pow_always (ERat q) (ERat (-1)) = true) by (cbn [pow_always]; assert (Z : qis0 q = false) by (destruct (qis0 q) eqn:Z; auto; exfalso; apply qis0_iff in Z; contradiction); rewrite Z; apply orb_true_r).
    now rewrite A. }
  rewrite Ef. destruct (k_pow_int c (15 + n) q (-1)) as (p & E & Hp).
  { reflexivity. }
  { intros Z. contradiction. }
  change (K c (S (15 + n))) with (K c (16 + n)) in E. rewrite E. cbn [bind].
  apply (prod_cy [ETrig f (ESym y); ERat p] f); auto.
  - constructor; [apply tm_x, tx_trig; auto using lin_sym|]. constructor; auto.
  - cbn. intros G. rewrite Hp in G. cbn in G. assert (Z : (q * (/ q) == 0)%Q) by (qz G; rewrite G; ring). rewrite Qmult_inv_r in Z by exact Nq. discriminate.
Qed.

(** the table, and the substitution back *)
Lemma table_y f : f = Sin \/ f = Cos -> exists r, table fk y (ETrig f (ESym y)) = Ok (Some r) /\ cy r.
Proof.
  intros Hf. unfold table. cbn [contains]. rewrite String.eqb_refl. cbn [negb].
  assert (E0 : eq_with_var y "x" (ESym y) (ESym "x") = true) by (cbn [eq_with_var]; now rewrite !String.eqb_refl).
  destruct Hf as [-> | ->].
  - assert (Et : table_loop y (ETrig Sin (ESym y)) (std_trig fk) = (a <- (k <- k_trig fk Cos (ESym y);; op_neg fk k);; Ok (Some a))).
    { unfold std_trig. cbn [table_loop]. assert (E : eq_with_var y "x" (ETrig Sin (ESym y)) (ETrig Sin (ESym "x")) = true) by exact E0. now rewrite E. }
    rewrite Et. change (k_trig fk Cos (ESym y)) with (Ok (ETrig Cos (ESym y))). cbn [bind].
    destruct (mul_cy (-1) (ETrig Cos (ESym y))) as (r & E & M); [discriminate|auto|]. unfold op_neg. rewrite E. cbn [bind]. eauto.
  - assert (Et : table_loop y (ETrig Cos (ESym y)) (std_trig fk) = (a <- k_trig fk Sin (ESym y);; Ok (Some a))).
    { unfold std_trig. cbn [table_loop].
      assert (E1 : eq_with_var y "x" (ETrig Cos (ESym y)) (ETrig Sin (ESym "x")) = false) by reflexivity.
      assert (E : eq_with_var y "x" (ETrig Cos (ESym y)) (ETrig Cos (ESym "x")) = true) by exact E0. now rewrite E1, E. }
    rewrite Et. change (k_trig fk Sin (ESym y)) with (Ok (ETrig Sin (ESym y))). cbn [bind]. eauto.
Qed.
Lemma back_y v u t : v <> ""%string -> v <> y -> lin v u -> cy t -> contains v t = false /\ exists r, replaceE fk t (ESym y) u = Ok r /\ tmono v r.
Proof.
  intros Hv N Hu C. assert (Cv : String.eqb y v = false) by (apply String.eqb_neq; congruence).
  split; [destruct C; cbn; now rewrite Cv|].
  unfold replaceE, replace_factory, replace_factory_list. set (p := first_cond _).
  assert (Py : p (ESym y) = Ok (Some (u, true))).
  { unfold p. cbn [first_cond]. change (k_eq fk (ESym y) (ESym y)) with (py_eq c (ESym y) (ESym y)). rewrite pe_vv. reflexivity. }
  assert (Pn : forall e, coin e (ESym y) = false -> eeqb e (ESym y) = false -> p e = Ok None).
  { intros e H1 H2. unfold p. cbn [first_cond]. change (k_eq fk e (ESym y)) with (py_eq c e (ESym y)). unfold py_eq. rewrite H1, H2, andb_false_r. reflexivity. }
  assert (Pt : forall f, f = Sin \/ f = Cos -> walk fk p (ETrig f (ESym y)) = Ok (ETrig f u, true)).
  { intros f Hf. cbn [walk]. rewrite (Pn (ETrig f (ESym y))) by reflexivity. cbn [bind]. rewrite Py. cbn [bind]. rewrite (ktrig_t v dom c n f u Hf Hu). reflexivity. }
  assert (Pq : forall q, walk fk p (ERat q) = Ok (ERat q, false)).
  { intros q. cbn [walk]. rewrite (Pn (ERat q)) by reflexivity. reflexivity. }
  destruct C as [f Hf|q f Z Hf|q f Z Hf].
  - rewrite (Pt f Hf). cbn [bind]. eexists. split; [reflexivity|]. apply tm_x, tx_trig; auto.
  - pose proof (Pt f Hf) as E1. pose proof (Pq q) as E2. cbn [walk] in E1, E2 |- *. rewrite (Pn (EProd [ERat q; ETrig f (ESym y)])) by reflexivity. cbn [bind]. rewrite E2. cbn [bind]. rewrite E1. cbn [bind].
    destruct (tprod v Hv c (4 + n) [ERat q; ETrig f u]) as (r & E & M).
    { constructor; auto. }
    { cbn. lia. }
    change (k_prod fk) with (k_prod (K c (12 + (4 + n)))). rewrite E. cbn [bind]. eauto.
  - pose proof (Pt f Hf) as E1. pose proof (Pq q) as E2. cbn [walk] in E1, E2 |- *. rewrite (Pn (EProd [ETrig f (ESym y); ERat q])) by reflexivity. cbn [bind]. rewrite E1. cbn [bind]. rewrite E2. cbn [bind].
    destruct (tprod v Hv c (4 + n) [ETrig f u; ERat q]) as (r & E & M).
    { constructor; auto. }
    { cbn. lia. }
    change (k_prod fk) with (k_prod (K c (12 + (4 + n)))). rewrite E. cbn [bind]. eauto.
Qed.
End Fresh.

(** ** The search *)
(** a function of sin or cos type whose argument is not a symbol *)
Definition ctrig (e : expr) : bool := match e with ETrig _ (ESym _) => false | ETrig _ _ => true | _ => false end.
Definition mu (e : expr) : nat := List.length (flat_prod1 e) + (if gcontains ctrig e then 2 else 0).
Lemma ctrig_rename a b e : ctrig (rename a b e) = ctrig e.
Proof. destruct e as [| | | | |s| | | | | |f i|]; try reflexivity; cbn [rename]; [now destruct (String.eqb _ _)|]. destruct i; try reflexivity. cbn [rename]. now destruct (String.eqb _ _). Qed.
Lemma gc_rename a b e : gcontains ctrig (rename a b e) = gcontains ctrig e.
Proof.
  induction e as [q| | | | |s| |ts IH|ts IH|x y IHx IHy|x y IHx IHy|f i IHi|i IHi] using expr_ind'; try reflexivity.
  - cbn [rename]. now destruct (String.eqb _ _).
  - cbn [rename gcontains ctrig orb]. induction IH as [|t l Ht Hl IHl]; cbn [map existsb]; [reflexivity|]. now rewrite Ht, IHl.
  - cbn [rename gcontains ctrig orb]. induction IH as [|t l Ht Hl IHl]; cbn [map existsb]; [reflexivity|]. now rewrite Ht, IHl.
  - cbn [rename gcontains ctrig orb]. now rewrite IHx, IHy.
  - cbn [rename gcontains ctrig orb]. now rewrite IHx, IHy.
  - pose proof (ctrig_rename a b (ETrig f i)) as E. cbn [rename] in E |- *. cbn [gcontains]. now rewrite E, IHi.
  - cbn [rename gcontains ctrig orb]. exact IHi.
Qed.
Lemma flat_rename a b e : flat_prod1 (rename a b e) = map (rename a b) (flat_prod1 e).
Proof.
  induction e as [q| | | | |s| |ts IH|ts IH|x y IHx IHy|x y IHx IHy|f i IHi|i IHi] using expr_ind'; try reflexivity.
  - cbn [rename]. destruct (String.eqb s a) eqn:E; cbn; now rewrite E.
  - cbn [rename flat_prod1]. induction IH as [|t l Ht Hl IHl]; cbn [map flat_map]; [reflexivity|]. now rewrite Ht, IHl, map_app.
Qed.
Lemma mu_rename a b e : mu (rename a b e) = mu e.
Proof. unfold mu. now rewrite gc_rename, flat_rename, map_length. Qed.

Section Run.
Context (dom : expr -> bool) (rng : string -> expr -> bool) (nm : nat -> string) (c : cfg) (n d : nat) (v : string) (Hv : v <> ""%string).
Context (Hnm : forall x, nm x <> v /\ nm x <> ""%string) (Hrng : forall y u, rng y u = true) (Hd : 3 <= d).
Notation fk := (F dom c (16 + n)).
Hint Constructors cy LinTot.tx LinTot.tmono : core.
(** the integrands, and the antiderivatives, in the variable y *)
Definition CMy (y : string) (t : expr) : Prop := (y = v /\ tmono v t) \/ (y <> v /\ y <> ""%string /\ cy y t).
Definition LFy (y : string) (t : expr) : Prop := y <> ""%string /\ tleaf y t /\ (y <> v -> exists f, (f = Sin \/ f = Cos) /\ t = ETrig f (ESym y)).
Definition LUy (y : string) (t : expr) : Prop := y = v /\ exists f i, (f = Sin \/ f = Cos) /\ t = ETrig f i /\ lin v i /\ i <> ESym v.
Definition KCy (k : expr) : Prop := exists q, ~ (q == 0)%Q /\ k = ERat q.
Definition ULy (y z : string) (u : expr) : Prop := y = v /\ z <> v /\ z <> ""%string /\ lin v u.

Lemma lin_case i : lin v i -> i = ESym v \/ (i <> ESym v /\ forall f, gcontains ctrig (ETrig f i) = true).
Proof. intros (_ & [[->|(k & _ & _ & ->)]|(a & b & _ & _ & ->)]); [left; reflexivity|right|right]; (split; [discriminate|reflexivity]). Qed.
Lemma mu_pos y t : CMy y t -> 1 <= mu t.
Proof.
  intros [[-> M]|(_ & _ & C)]; unfold mu; [|destruct C; cbn; lia].
  destruct M as [q|x T|q x Z T|q x Z T]; try (cbn; lia); destruct T; cbn; lia.
Qed.
Lemma lin_in i : lin v i -> contains v i = true.
Proof. intros (_ & [H|(a & b & H & _ & ->)]); [now apply lterm_in|]. cbn [contains existsb]. now rewrite (lterm_in v a H). Qed.
Lemma tx_in x : LinTot.tx v x -> contains v x = true /\ is_sum x = false.
Proof. intros [|q N Z|f i F Hi]; cbn; rewrite ?String.eqb_refl; auto. split; auto. now apply lin_in. Qed.
Lemma cm_nsum y t : CMy y t -> is_sum t = false.
Proof. intros [[-> M]|(_ & _ & C)]; [|now destruct C]. destruct M as [q|x T|q x Z T|q x Z T]; auto. now apply tx_in. Qed.
Lemma cm_case y t : CMy y t -> LFy y t \/ LUy y t \/ exists ts, t = EProd ts.
Proof.
  intros [[-> M]|(N & Ny & C)].
  - destruct M as [q|x T|q x Z T|q x Z T]; eauto.
    + left. split; [auto|]. split; [left; eauto|congruence].
    + destruct T as [|q N Z|f i F Hi].
      * left. split; [auto|]. split; [right; constructor|congruence].
      * left. split; [auto|]. split; [right; now constructor|congruence].
      * destruct (lin_case i Hi) as [->|[Ni _]]; [left|right; left].
        -- split; [auto|]. split; [right; constructor; [auto|now left]|congruence].
        -- split; [auto|]. exists f, i. auto.
  - destruct C as [f Hf|q f Z Hf|q f Z Hf]; eauto. left. split; [auto|]. split; [right; constructor; [auto|now left]|eauto].
Qed.
Lemma pull_y y ts : CMy y (EProd ts) -> exists t p, pull_const fk y (EProd ts) = Ok (Some (t, p)) /\ KCy t /\ CMy y p /\ mu p < mu (EProd ts).
Proof.
  intros H.
  assert (G : forall q x, contains y x = true -> k_prod fk [x] = Ok x -> pull_const fk y (EProd [ERat q; x]) = Ok (Some (ERat q, x)) /\ pull_const fk y (EProd [x; ERat q]) = Ok (Some (ERat q, x))).
  { intros q x C E. split; unfold pull_const.
    - cbn [pull_go contains negb List.app]. rewrite E. reflexivity.
    - cbn [pull_go contains negb]. rewrite C. cbn [negb List.app pull_go contains]. rewrite E. reflexivity. }
  destruct H as [[-> M]|(N & Ny & C)].
  - assert (K1 : forall x, LinTot.tx v x -> k_prod fk [x] = Ok x) by (intros x T; destruct T; reflexivity).
    assert (L1 : forall x, LinTot.tx v x -> List.length (flat_prod1 x) = 1) by (intros x T; destruct T; reflexivity).
    inversion M as [q|x T|q x Z T|q x Z T]; subst; [inversion T| |]; destruct (G q x (proj1 (tx_in x T)) (K1 x T)) as [G1 G2]; exists (ERat q), x.
    + rewrite G1. split; auto. split; [exists q; auto|]. split; [left; auto|]. unfold mu. cbn [flat_prod1 flat_map gcontains ctrig existsb orb]. rewrite app_nil_r, orb_false_r, app_length, (L1 x T). simpl. lia.
    + rewrite G2. split; auto. split; [exists q; auto|]. split; [left; auto|]. unfold mu. cbn [flat_prod1 flat_map gcontains ctrig existsb orb]. rewrite orb_false_r, !app_length, (L1 x T). simpl. lia.
  - assert (K1 : forall f, contains y (ETrig f (ESym y)) = true) by (intros; cbn; apply String.eqb_refl).
    inversion C as [|q f Z Hf|q f Z Hf]; subst; destruct (G q (ETrig f (ESym y)) (K1 f) eq_refl) as [G1 G2]; exists (ERat q), (ETrig f (ESym y)).
    + rewrite G1. split; auto. split; [exists q; auto|]. split; [right; auto|]. cbn. lia.
    + rewrite G2. split; auto. split; [exists q; auto|]. split; [right; auto|]. cbn. lia.
Qed.
Lemma tt_lin y t : TrigTot.tmono y false t -> LinTot.tmono y t.
Proof.
  assert (T : forall x, TrigTot.tx y false x -> LinTot.tx y x).
  { intros x [|q N Z|f i F [->|[[=] _]]]; auto. constructor; auto using lin_sym. }
  intros [q|x X|q x Z X|q x Z X]; auto.
Qed.
Lemma leaf_tt y t : tleaf y t -> TrigTot.tmono y false t.
Proof. intros [(q & ->)|T]; [constructor|now constructor]. Qed.
Lemma safe_y (h : heap) x i q : nth_error h i = Some q -> LFy (nd_v q) (nd_e q) -> CMy (nd_v q) (nd_e q) -> safe_step fk rng nm d (h, x) i = Ok (h, x).
Proof. intros Hq (Ny & L & _) _. exact (safe_t dom rng nm c (6 + n) d (nd_v q) Ny h x i q Hq eq_refl L (leaf_tt _ _ L)). Qed.
Lemma table_c y t : LFy y t -> CMy y t -> exists r, table fk y t = Ok (Some r) /\ CMy y r.
Proof.
  intros (Ny & L & S) [[-> M]|(N & _ & C)].
  - destruct (table_t dom c (6 + n) v Hv t L) as (r & E & T). exists r. split; [exact E|]. left. split; auto. now apply tt_lin.
  - destruct (S N) as (f & Hf & ->). destruct (table_y y Ny dom c n f Hf) as (r & E & T). exists r. split; [exact E|]. right. auto.
Qed.
Lemma mul_y y k t : KCy k -> CMy y t -> exists r, op_mul fk k t = Ok r /\ CMy y r.
Proof.
  intros (q & Nq & ->) [[-> M]|(N & Ny & C)].
  - assert (G : exists r, k_prod fk [ERat q; t] = Ok r /\ tmono v r).
    { apply (tprod v Hv c (4 + n)); auto. cbn [flat_map]. rewrite app_nil_r. apply (xs_tx v t M). }
    assert (G2 : exists r, op_mul fk (ERat q) t = Ok r /\ tmono v r).
    { destruct t; try exact G. cbn [op_mul]. eexists. split; [reflexivity|]. constructor. }
    destruct G2 as (r & E & T). exists r. split; [exact E|]. left. auto.
  - destruct (mul_cy y Ny dom c n q t Nq C) as (r & E & T). exists r. split; [exact E|]. right. auto.
Qed.
Lemma sub_y y z u t : ULy y z u -> CMy z t -> contains y t = false /\ exists r, replaceE fk t (ESym z) u = Ok r /\ CMy y r.
Proof.
  intros (-> & Nz & Ez & Hu) [[-> _]|(_ & _ & C)]; [congruence|]. destruct (back_y z dom c n v u t Hv) as (C0 & r & E & M); auto. split; auto. exists r. split; [exact E|]. left. auto.
Qed.
Lemma linear_y z f i : f = Sin \/ f = Cos -> lin v i -> i <> ESym v -> z <> v -> z <> ""%string ->
  exists g, linear_usub fk rng d v z (ETrig f i) = Ok (Some (i, g)) /\ cy z g.
Proof.
  intros Hf Hi Ni Nz Ez. unfold linear_usub.
  assert (E0 : Nat.ltb (countE (ESym v) (ETrig f i)) 1 = false).
  { apply Nat.ltb_ge. destruct Hi as (_ & [[->|(k & _ & _ & ->)]|(a & b & [->|(k & _ & _ & ->)] & _ & ->)]); cbn; rewrite String.eqb_refl; cbn; lia. }
  rewrite E0. assert (E1 : linear_check fk v (ETrig f i) (None, None) = Ok (true, (Some i, None))).
  { cbn [linear_check]. change (contains v (ETrig f i)) with (contains v i). rewrite (lin_in i Hi). cbn [negb linear_of bind].
    assert (E : linear_check fk v i (None, None) = Ok (true, (Some i, None))).
    { pose proof (linear_of_lin v dom c n i Hi Ni) as E. pose proof (lin_in i Hi) as C. destruct i; cbn [linear_check]; rewrite C; cbn [negb]; rewrite E; reflexivity. }
    exact E. }
  rewrite E1. cbn [bind]. destruct d as [|[|[|d']]]; try lia. destruct (diff_lin v dom c n d' i Hi) as (q & Nq & E2). rewrite E2. cbn [bind].
  rewrite (replace_arg v dom c n z f i Hf Hi). cbn [bind]. destruct (div_cy z Ez dom c n q f Nq Hf) as (g & E3 & Cg). rewrite E3. cbn [bind].
  exists g. split; [|exact Cg]. unfold usub, usub_guard.
  assert (G : negb (String.eqb z v) && negb (contains z (ETrig f i)) && negb (contains z i) && cert (k_node fk) i && cert (k_node fk) g && rng z i = true).
  { assert (Zv : String.eqb v z = false) by (apply String.eqb_neq; congruence). assert (Vz : String.eqb z v = false) by (apply String.eqb_neq; congruence).
    assert (Ci : contains z i = false) by (destruct Hi as (_ & [[->|(k & _ & _ & ->)]|(a & b & [->|(k & _ & _ & ->)] & _ & ->)]); cbn; now rewrite Zv).
    rewrite Vz, Hrng. change (contains z (ETrig f i)) with (contains z i). rewrite Ci. cbn [negb andb]. rewrite andb_true_r.
    assert (Ce : cert (k_node fk) i = true) by (destruct Hi as (_ & [[->|(k & _ & _ & ->)]|(a & b & [->|(k & _ & _ & ->)] & _ & ->)]); reflexivity).
    rewrite Ce. cbn [andb]. destruct Cg as [f' [-> | ->]|q' f' Z [-> | ->]|q' f' Z [-> | ->]]; reflexivity. }
  rewrite G, orb_true_r. reflexivity.
Qed.
Lemma usub_y (h : heap) x i q : nth_error h i = Some q -> LUy (nd_v q) (nd_e q) -> CMy (nd_v q) (nd_e q) ->
  exists u g, ULy (nd_v q) (nm x) u /\ CMy (nm x) g /\ mu g < mu (nd_e q) /\
    safe_step fk rng nm d (h, x) i = (h' <- add1 fk h i (mkn g (nm x) (TUSub ULin u) i);; Ok (h', S x)).
Proof.
  intros Hq (Ev & f & a & Hf & Ee & Ha & Na) _. destruct (Hnm x) as [N1 N2]. destruct (linear_y (nm x) f a Hf Ha Na N1 N2) as (g & E & Cg).
  exists a, g. split; [split; auto|]. split; [right; auto|]. split.
  - rewrite Ee. unfold mu at 2. destruct (lin_case a Ha) as [->|[_ Hc]]; [congruence|]. rewrite (Hc f). destruct Cg; cbn; lia.
  - unfold safe_step. rewrite (get_some _ _ _ Hq). cbn [bind]. rewrite Ev, Ee.
    assert (E1 : expand_step fk d (ETrig f a) = Ok None).
    { unfold expand_step. rewrite (expandable_t v Hv dom c n (ETrig f a)); [reflexivity|left; apply tm_x, tx_trig; auto]. }
    assert (E4 : (if is_id IComplete (last_tr ex_pa h i) then Ok None else expand_step fk d (ETrig f a)) = Ok None) by (rewrite E1; now destruct (is_id _ _)).
    assert (E3 : poly_division fk d v (ETrig f a) = Ok None) by (unfold poly_division; destruct (symbols (ETrig f a)) as [|s [|s' l]]; auto).
    change (pull_const fk v (ETrig f a)) with (Ok None : res (option (expr * expr))). cbn [bind].
    change (partial_fractions fk d v (ETrig f a)) with (Ok None : res (option expr)). cbn [bind]. rewrite E3. cbn [bind]. rewrite E4. cbn [bind]. rewrite E. reflexivity.
Qed.
Lemma tfactors e : tpoly v e -> size mu e <= 5.
Proof.
  assert (L : forall t, tmono v t -> mu t <= 4).
  { intros t [q|x T|q x Z T|q x Z T]; unfold mu; try (cbn; lia).
    - destruct T; cbn [flat_prod1 List.length]; destruct (gcontains _ _); lia.
    - destruct T; cbn [flat_prod1 flat_map List.app List.length]; destruct (gcontains _ _); lia.
    - destruct T; cbn [flat_prod1 flat_map List.app List.length]; destruct (gcontains _ _); lia. }
  intros [T|(ts & -> & _ & Fs)].
  - pose proof (cm_nsum v e (or_introl (conj eq_refl T))) as S0. pose proof (L e T). unfold size. destruct e; try lia. discriminate.
  - cbn [size]. apply le_n_S. induction Fs as [|t ts T Fs IH]; [simpl; lia|]. cbn [map fold_right]. pose proof (L t T). lia.
Qed.
Theorem integrate_lin bf k fin e : 5 <= d -> tpoly v e -> exists r, integrate fk rng nm d bf k fin e v = Ok (Some r) /\ tpoly v r.
Proof.
  intros L P.
  assert (St : forall t, tpoly v t -> exists r, simplifyE fk d t = Ok r /\ tpoly v r).
  { intros t Pt. assert (X : exists d', d = S d') by (destruct d; [lia|eauto]). destruct X as (d' & ->). exact (simplify_t v Hv dom c n d' t Pt). }
  destruct (St e P) as (e1 & E1 & P1).
  destruct (integrate_tree2 fk rng nm d v mu mu_rename CMy LFy LUy (tpoly v) KCy) with (SM := CMy) (SP := tpoly v) (UL := ULy) (bf := bf) (k := k) (fin := fin) (e0 := e) (e := e1) as (r & Pr & E); auto.
  - exact mu_pos.
  - exact cm_nsum.
  - exact cm_case.
  - intros t _ (_ & T & _). left. split; auto. apply tt_lin. now apply leaf_tt.
  - intros t [M|(ts & -> & L2 & F2)]; [left; left; auto|right]. exists ts. split; auto. split; [intros ->; simpl in L2; lia|]. eapply Forall_impl; [|exact F2]. intros a M. left. auto.
  - exact pull_y.
  - exact safe_y.
  - intros t [[_ M]|(N & _)]; [now left|congruence].
  - exact table_c.
  - exact mul_y.
  - intros l Fl. apply (tsum v Hv c n). eapply Forall_impl; [|exact Fl]. intros a [[_ M]|(N & _)]; [now left|congruence].
  - exact usub_y.
  - exact sub_y.
  - pose proof (tfactors e1 P1). lia.
  - destruct fin; [|eauto]. destruct (St r Pr) as (r2 & E2 & P2). rewrite E2 in E. cbn [bind] in E. eauto.
Qed.
End Run.
