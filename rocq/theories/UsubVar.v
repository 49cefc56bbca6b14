(** * UsubVar: substitutions and the variable they replace (C98).

    [linear_usub fk rng n v y e] is LinearUSub on the integrand [e] in the variable [v], with the new variable
    [y]: the substitution u and the new integrand (Trans.v). *)
From Coquelicot Require Import Coquelicot.
From Verif Require Import Base Expr Kernel Mono Funcs FMono Calc Sem RealLemmas Sound SoundPow Atoms Agree Oracle
  FSound CalcSound Cont Combi Expand ExpandSound Factor Regex Simp Pts Match TrigSimp Poly PolyQ Table Trans TransMono TransSound
  Search SearchMono SearchSound Shape Interval PropsA PropsC PropsD PropsE PropsF
  Her HerLib HerSimp HerTrig HerTrans HerSearch Pure PropsJ.
Close Scope R_scope.
Local Open Scope nat_scope.

(** ** Specification *)
(** the products LinearUSub rescales: c v^p, read as (c' v)^p *)
Definition rescaled (fk : fkern) (v : string) (t : expr) : bool :=
  match linear_of fk v t with Ok (Some (_, Some _)) => true | _ => false end.

Section Walk.
Context (c : cfg) (m : nat) (v y : string) (Nyv : y <> v).
Notation fk := (PropsC.PF c m).
Notation P := (within (fun s => s <> v)).
Let HP : HerF P := within_her _.
Let HF : FHer P fk := F_h P HP _ _ _.
Notation hit U := (first_cond [(fun t => k_eq fk t U, fun _ => Ok (ESym y))]).

Lemma eq_self e : k_eq fk e e = Ok true.
Proof. change (k_eq fk e e) with (Ok (eeqb e e) : res bool). now rewrite eeqb_refl. Qed.
Lemma y_free : hx P (ESym y).
Proof. intros s [<-|[]]. exact Nyv. Qed.
Lemma free_ok e : contains v e = false -> hx P e.
Proof. intros H s Hs ->. apply names_contains in Hs. congruence. Qed.
Lemma hit_h U t : hall P (hit U t).
Proof. cbn [first_cond]. apply hall_bind0. intros [|]; cbn; auto. split; [exact y_free|exact Logic.I]. Qed.
Lemma walk_free U e : contains v e = false -> hall P (walk fk (hit U) e).
Proof. intros H. apply (walk_h P HP fk HF); [intros; apply hit_h|now apply free_ok]. Qed.
Lemma linear_of_none e u : linear_of fk v e = Ok (Some (u, None)) -> u = e.
Proof.
  intros H. unfold linear_of in H. cbv zeta in H. destruct e; try discriminate.
  - apply bind_ok in H as ([|] & _ & H); [now injection H|discriminate].
  - apply bind_ok in H as (q & _ & H). destruct (negb _); [now injection H|].
    apply bind_ok in H as (e1 & _ & H). apply bind_ok in H as ([xyz k] & _ & H). destruct xyz; try discriminate. destruct (_ && _); [|discriminate].
    apply bind_ok in H as (co & _ & H). destruct (isq co 1); [discriminate|]. apply bind_ok in H as (ca & _ & H). apply bind_ok in H as (ix & _ & H). apply bind_ok in H as (ic & _ & H).
    apply bind_ok in H as (w & _ & H). discriminate.
Qed.
Notation st := (option expr * option expr)%type.
Definition good (e : expr) (s s' : st) : Prop :=
  snd s' = snd s /\ (forall u0, fst s = Some u0 -> fst s' = Some u0) /\
  (contains v e = true -> exists u1, fst s' = Some u1) /\
  forall U, (contains v e = true -> fst s' = Some U) -> hall P (walk fk (hit U) e).
Lemma good_free e s : contains v e = false -> good e s s.
Proof. intros C. split; [reflexivity|]. split; [auto|]. split; [congruence|]. intros U _. now apply walk_free. Qed.
Lemma resc_f t : rescaled fk v t = false -> forall u w, linear_of fk v t <> Ok (Some (u, Some w)).
Proof. unfold rescaled. intros H u w E. rewrite E in H. discriminate. Qed.

Notation checkgo := (fix go (l : list expr) s : res (bool * st) :=
    match l with
    | [] => Ok (true, s)
    | t :: r => '(b, s') <- linear_check fk v t s;; if b : bool then go r s' else Ok (false, s')
    end).
Notation walkgo U := (fix go (l : list expr) : res (list expr * bool) :=
    match l with
    | [] => Ok ([], false)
    | t :: r => '(t', h) <- walk fk (hit U) t;; '(r', h') <- go r;; Ok (t' :: r', h || h')
    end).
(** what the check says about an expression that is not replaced as a whole *)
Lemma hit_no U e : (k_eq fk e U = Ok false -> hall P (walk fk (hit U) e)) -> hall P (walk fk (hit U) e).
Proof.
  intros H. destruct (k_eq fk e U) as [[|]| |] eqn:E; [clear H|now apply H|clear H|clear H].
  all: destruct e; cbn [walk first_cond]; rewrite E; cbn [bind]; first [exact Logic.I|split; [exact y_free|exact Logic.I]].
Qed.
Lemma hit_yes U e : k_eq fk e U = Ok true -> hall P (walk fk (hit U) e).
Proof. intros E. apply hit_no. congruence. Qed.

Lemma list_good ts : List.Forall (fun e => forall s s', gcontains (rescaled fk v) e = false -> linear_check fk v e s = Ok (true, s') -> good e s s') ts ->
  forall s s', existsb (gcontains (rescaled fk v)) ts = false -> checkgo ts s = Ok (true, s') ->
  snd s' = snd s /\ (forall u0, fst s = Some u0 -> fst s' = Some u0) /\
  (existsb (contains v) ts = true -> exists u1, fst s' = Some u1) /\
  forall U, (existsb (contains v) ts = true -> fst s' = Some U) -> hall P (walkgo U ts).
Proof.
  induction 1 as [|t l Ht _ IH]; intros s s' G H.
  - injection H as <-. split; [reflexivity|]. split; [auto|]. split; [discriminate|]. intros U _. split; [constructor|exact Logic.I].
  - cbn [existsb] in G. apply orb_false_iff in G as [G1 G2]. apply bind_ok in H as ([b s1] & H1 & H2). destruct b; [|discriminate].
    destruct (Ht s s1 G1 H1) as (A1 & A2 & A3 & A4). destruct (IH s1 s' G2 H2) as (B1 & B2 & B3 & B4).
    split; [congruence|]. split; [auto|]. split.
    + cbn [existsb]. intros C. apply orb_true_iff in C as [C|C]; [|auto]. destruct (A3 C) as (u1 & E1). eauto.
    + intros U HU. cbn [existsb] in HU. cbn [walk].
      apply (hall_bind P (HA:=holds_prod P expr bool)).
      { apply A4. intros C. destruct (A3 C) as (u1 & E1). pose proof (B2 u1 E1) as E2. rewrite C in HU. rewrite (HU eq_refl) in E2. injection E2 as ->. exact E1. }
      intros [t1 h1] [K1 _]. apply (hall_bind P (HA:=holds_prod P (list expr) bool)).
      { apply B4. intros C. apply HU. rewrite C. apply orb_true_r. }
      intros [l1 h2] [K2 _]. split; [constructor; auto|exact Logic.I].
Qed.
Lemma two_good a b : (forall s s', gcontains (rescaled fk v) a = false -> linear_check fk v a s = Ok (true, s') -> good a s s') ->
  (forall s s', gcontains (rescaled fk v) b = false -> linear_check fk v b s = Ok (true, s') -> good b s s') ->
  forall s s', gcontains (rescaled fk v) a || gcontains (rescaled fk v) b = false ->
  ('(r, s1) <- linear_check fk v a s;; if r : bool then linear_check fk v b s1 else Ok (false, s1)) = Ok (true, s') ->
  snd s' = snd s /\ (forall u0, fst s = Some u0 -> fst s' = Some u0) /\
  (contains v a || contains v b = true -> exists u1, fst s' = Some u1) /\
  forall U, (contains v a || contains v b = true -> fst s' = Some U) -> hall P (walk fk (hit U) a) /\ hall P (walk fk (hit U) b).
Proof.
  intros Ha Hb s s' G H. apply orb_false_iff in G as [G1 G2]. apply bind_ok in H as ([r s1] & H1 & H2). destruct r; [|discriminate].
  destruct (Ha s s1 G1 H1) as (A1 & A2 & A3 & A4). destruct (Hb s1 s' G2 H2) as (B1 & B2 & B3 & B4).
  split; [congruence|]. split; [auto|]. split.
  - intros C. apply orb_true_iff in C as [C|C]; [|auto]. destruct (A3 C) as (u1 & E1). eauto.
  - intros U HU. split.
    + apply A4. intros C. destruct (A3 C) as (u1 & E1). pose proof (B2 u1 E1) as E2. rewrite C in HU. rewrite (HU eq_refl) in E2. injection E2 as ->. exact E1.
    + apply B4. intros C. apply HU. rewrite C. apply orb_true_r.
Qed.
Lemma check_good : forall e s s', gcontains (rescaled fk v) e = false -> linear_check fk v e s = Ok (true, s') -> good e s s'.
Proof.
  assert (W : forall e, contains v e = true -> forall s s' u ic, rescaled fk v e = false -> linear_of fk v e = Ok (Some (u, ic)) ->
    match fst s with
    | Some u0 => b <- k_eq fk u u0;; Ok (b, s)
    | None => Ok (true, (Some u, match ic with Some _ => ic | None => snd s end))
    end = Ok (true, s') -> good e s s').
  { intros e C s s' u ic R E H. destruct ic as [ic|]; [exfalso; eapply resc_f; eauto|]. apply linear_of_none in E as ->.
    assert (Hit : forall U, k_eq fk e U = Ok true -> hall P (walk fk (hit U) e)) by (intros U; apply hit_yes).
    destruct (fst s) as [u0|] eqn:Es.
    - apply bind_ok in H as (b & Hb & H). injection H as -> ->. split; [reflexivity|]. split; [intros; congruence|]. split; [intros; eauto|].
      intros U HU. apply Hit. specialize (HU C). congruence.
    - injection H as <-. split; [reflexivity|]. split; [intros; congruence|]. split; [intros _; eexists; reflexivity|].
      intros U HU. specialize (HU C). cbn in HU. injection HU as <-. apply Hit, eq_self. }
  assert (Z : forall e s s', contains v e = true -> rescaled fk v e = false -> linear_check fk v e s = Ok (true, s') -> 
    (forall s s', linear_of fk v e = Ok None -> linear_check fk v e s = Ok (true, s') -> good e s s') -> good e s s').
  { intros e s s' C R H K. destruct (linear_of fk v e) as [[[u ic]|]| |] eqn:E; [|now apply K| |].
    - apply (W e C s s' u ic R E). destruct e; cbn [linear_check] in H; rewrite C in H; cbn [negb] in H; rewrite E in H; exact H.
    - exfalso. destruct e; cbn [linear_check] in H; rewrite C in H; cbn [negb] in H; rewrite E in H; discriminate.
    - exfalso. destruct e; cbn [linear_check] in H; rewrite C in H; cbn [negb] in H; rewrite E in H; discriminate. }
  intros e. induction e as [q| | | | |s0|k|ts IH|ts IH|b x IHb IHx|i b IHi IHb|f i IHi|i IHi] using expr_ind'; intros s s' G H.
  all: match goal with |- good ?e _ _ => destruct (contains v e) eqn:C;
     [apply Z; [exact C|cbn [gcontains] in G; try (apply orb_false_iff in G as [G _]); first [exact G|reflexivity]|exact H|clear s s' H; intros s s' EL H]
     |assert (s' = s) as -> by (cbn [linear_check] in H; rewrite C in H; cbn [negb] in H; now injection H); now apply good_free] end.
  all: cbn [linear_check] in H; rewrite C in H; cbn [negb] in H; rewrite EL in H; cbn [bind] in H; try discriminate.
  all: cbn [gcontains] in G; apply orb_false_iff in G as [_ G]; cbn [contains] in C.
  - destruct (list_good ts IH s s' G H) as (A1 & A2 & A3 & A4). split; [auto|]. split; [auto|]. split; [auto|]. intros U HU.
    cbn [contains] in HU. apply hit_no; intros E. cbn [walk first_cond]. rewrite E. cbn [bind].
    apply (hall_bind P (HA:=holds_prod P (list expr) bool)); [now apply A4|]. intros [t1 h1] [K1 _]. hn. her.
  - destruct (list_good ts IH s s' G H) as (A1 & A2 & A3 & A4). split; [auto|]. split; [auto|]. split; [auto|]. intros U HU.
    cbn [contains] in HU. apply hit_no; intros E. cbn [walk first_cond]. rewrite E. cbn [bind].
    apply (hall_bind P (HA:=holds_prod P (list expr) bool)); [now apply A4|]. intros [t1 h1] [K1 _]. hn. her.
  - destruct (two_good b x IHb IHx s s' G H) as (A1 & A2 & A3 & A4). split; [auto|]. split; [auto|]. split; [auto|]. intros U HU.
    cbn [contains] in HU. destruct (A4 U HU) as [W1 W2]. apply hit_no; intros E. cbn [walk first_cond]. rewrite E. cbn [bind].
    apply (hall_bind P (HA:=holds_prod P expr bool)); [auto|]. intros [t1 h1] [K1 _].
    apply (hall_bind P (HA:=holds_prod P expr bool)); [auto|]. intros [t2 h2] [K2 _]. hn. her.
  - destruct (two_good i b IHi IHb s s' G H) as (A1 & A2 & A3 & A4). split; [auto|]. split; [auto|]. split; [auto|]. intros U HU.
    cbn [contains] in HU. destruct (A4 U HU) as [W1 W2]. apply hit_no; intros E. cbn [walk first_cond]. rewrite E. cbn [bind].
    apply (hall_bind P (HA:=holds_prod P expr bool)); [auto|]. intros [t1 h1] [K1 _].
    apply (hall_bind P (HA:=holds_prod P expr bool)); [auto|]. intros [t2 h2] [K2 _]. hn. her.
  - destruct (IHi s s' G H) as (A1 & A2 & A3 & A4). split; [auto|]. split; [auto|]. split; [auto|]. intros U HU.
    cbn [contains] in HU. pose proof (A4 U HU) as W1. apply hit_no; intros E. cbn [walk first_cond]. rewrite E. cbn [bind].
    apply (hall_bind P (HA:=holds_prod P expr bool)); [auto|]. intros [t1 h1] [K1 _]. hn. her.
  - destruct (IHi s s' G H) as (A1 & A2 & A3 & A4). split; [auto|]. split; [auto|]. split; [auto|]. intros U HU.
    cbn [contains] in HU. pose proof (A4 U HU) as W1. apply hit_no; intros E. cbn [walk first_cond]. rewrite E. cbn [bind].
    apply (hall_bind P (HA:=holds_prod P expr bool)); [auto|]. intros [t1 h1] [K1 _]. hn. her.
Qed.

(** counting occurrences *)
Lemma count_v_free e : countE (ESym v) e = 0 -> contains v e = false.
Proof.
  induction e as [q| | | | |s0|k|ts IH|ts IH|b x IHb IHx|i b IHi IHb|f i IHi|i IHi] using expr_ind'; intros H; try reflexivity.
  - cbn [countE same_type eeqb andb contains] in *. destruct (String.eqb s0 v) eqn:E; [discriminate|reflexivity].
  - cbn [countE same_type eeqb andb contains] in *. induction IH as [|t l Ht _ IHl]; [reflexivity|]. unfold list_sum in *. cbn [map fold_right existsb] in *. rewrite Ht by lia. apply IHl. lia.
  - cbn [countE same_type eeqb andb contains] in *. induction IH as [|t l Ht _ IHl]; [reflexivity|]. unfold list_sum in *. cbn [map fold_right existsb] in *. rewrite Ht by lia. apply IHl. lia.
  - cbn [countE same_type eeqb andb contains] in *. rewrite IHb, IHx by lia. reflexivity.
  - cbn [countE same_type eeqb andb contains] in *. rewrite IHi, IHb by lia. reflexivity.
  - cbn [countE same_type eeqb andb contains] in *. auto.
  - cbn [countE same_type eeqb andb contains] in *. auto.
Qed.
Lemma count_trig f e : countE (ETrig f (ESym v)) e <= countE (ESym v) e /\
  (countE (ETrig f (ESym v)) e = countE (ESym v) e -> hall P (walk fk (hit (ETrig f (ESym v))) e)).
Proof.
  set (U := ETrig f (ESym v)).
  assert (Eq : forall e, k_eq fk e U = Ok (eeqb e U)) by reflexivity.
  assert (At : forall e, countE U e = 0 -> contains v e = false -> countE U e <= countE (ESym v) e /\ (countE U e = countE (ESym v) e -> hall P (walk fk (hit U) e))).
  { intros e0 H C. split; [lia|]. intros _. now apply walk_free. }
  induction e as [q| | | | |s0|k|ts IH|ts IH|b x IHb IHx|i b IHi IHb|g i IHi|i IHi] using expr_ind'; try (apply At; reflexivity).
  - split; [cbn; lia|]. intros H. apply walk_free, count_v_free. rewrite <- H. reflexivity.
  - assert (L : list_sum (map (countE U) ts) <= list_sum (map (countE (ESym v)) ts) /\
      (list_sum (map (countE U) ts) = list_sum (map (countE (ESym v)) ts) -> hall P (walkgo U ts))).
    { induction IH as [|t l [Ht1 Ht2] _ [IHl1 IHl2]]; [split; [auto|intros _; split; [constructor|exact Logic.I]]|]. unfold list_sum in *. cbn [map fold_right] in *. split; [lia|]. intros E.
      apply (hall_bind P (HA:=holds_prod P expr bool)); [apply Ht2; lia|]. intros [t1 h1] [K1 _].
      apply (hall_bind P (HA:=holds_prod P (list expr) bool)); [apply IHl2; lia|]. intros [l1 h2] [K2 _]. split; [constructor; auto|exact Logic.I]. }
    change (countE U (ESum ts)) with (list_sum (map (countE U) ts)). change (countE (ESym v) (ESum ts)) with (list_sum (map (countE (ESym v)) ts)).
    split; [apply L|]. intros E. apply hit_no. intros E0. cbn [walk first_cond]. rewrite E0. cbn [bind].
    apply (hall_bind P (HA:=holds_prod P (list expr) bool)); [now apply L|]. intros [t1 h1] [K1 _]. hn. her.
  - assert (L : list_sum (map (countE U) ts) <= list_sum (map (countE (ESym v)) ts) /\
      (list_sum (map (countE U) ts) = list_sum (map (countE (ESym v)) ts) -> hall P (walkgo U ts))).
    { induction IH as [|t l [Ht1 Ht2] _ [IHl1 IHl2]]; [split; [auto|intros _; split; [constructor|exact Logic.I]]|]. unfold list_sum in *. cbn [map fold_right] in *. split; [lia|]. intros E.
      apply (hall_bind P (HA:=holds_prod P expr bool)); [apply Ht2; lia|]. intros [t1 h1] [K1 _].
      apply (hall_bind P (HA:=holds_prod P (list expr) bool)); [apply IHl2; lia|]. intros [l1 h2] [K2 _]. split; [constructor; auto|exact Logic.I]. }
    change (countE U (EProd ts)) with (list_sum (map (countE U) ts)). change (countE (ESym v) (EProd ts)) with (list_sum (map (countE (ESym v)) ts)).
    split; [apply L|]. intros E. apply hit_no. intros E0. cbn [walk first_cond]. rewrite E0. cbn [bind].
    apply (hall_bind P (HA:=holds_prod P (list expr) bool)); [now apply L|]. intros [t1 h1] [K1 _]. hn. her.
  - change (countE U (EPow b x)) with (countE U b + countE U x). change (countE (ESym v) (EPow b x)) with (countE (ESym v) b + countE (ESym v) x).
    destruct IHb as [B1 B2], IHx as [X1 X2]. split; [lia|]. intros E. apply hit_no. intros E0. cbn [walk first_cond]. rewrite E0. cbn [bind].
    apply (hall_bind P (HA:=holds_prod P expr bool)); [apply B2; lia|]. intros [t1 h1] [K1 _].
    apply (hall_bind P (HA:=holds_prod P expr bool)); [apply X2; lia|]. intros [t2 h2] [K2 _]. hn. her.
  - change (countE U (ELog i b)) with (countE U i + countE U b). change (countE (ESym v) (ELog i b)) with (countE (ESym v) i + countE (ESym v) b).
    destruct IHb as [B1 B2], IHi as [X1 X2]. split; [lia|]. intros E. apply hit_no. intros E0. cbn [walk first_cond]. rewrite E0. cbn [bind].
    apply (hall_bind P (HA:=holds_prod P expr bool)); [apply X2; lia|]. intros [t1 h1] [K1 _].
    apply (hall_bind P (HA:=holds_prod P expr bool)); [apply B2; lia|]. intros [t2 h2] [K2 _]. hn. her.
  - destruct (eeqb (ETrig g i) U) eqn:E0.
    + assert (Ei : i = ESym v).
      { unfold U in E0. cbn [eeqb] in E0. apply andb_prop in E0 as [_ E0]. destruct i; try discriminate. cbn [eeqb] in E0. apply String.eqb_eq in E0. now subst. }
      assert (C1 : countE U (ETrig g i) = 1).
      { unfold U in E0 |- *. cbn [countE]. rewrite E0. cbn [eeqb] in E0. apply andb_prop in E0 as [E0 _]. destruct g, f; try discriminate; reflexivity. }
      assert (C2 : countE (ESym v) (ETrig g i) = 1) by (rewrite Ei; cbn [countE same_type eeqb andb]; now rewrite String.eqb_refl).
      rewrite C1, C2. split; [auto|]. intros _. apply hit_yes. now rewrite Eq, E0.
    + destruct IHi as [X1 X2].
      assert (C1 : countE U (ETrig g i) = countE U i) by (cbn [countE]; rewrite E0, andb_false_r; reflexivity).
      rewrite C1. change (countE (ESym v) (ETrig g i)) with (countE (ESym v) i). split; [exact X1|]. intros E. apply hit_no. intros E2. cbn [walk first_cond]. rewrite E2. cbn [bind].
      apply (hall_bind P (HA:=holds_prod P expr bool)); [auto|]. intros [t1 h1] [K1 _]. hn. her.
  - change (countE U (EAbs i)) with (countE U i). change (countE (ESym v) (EAbs i)) with (countE (ESym v) i).
    destruct IHi as [X1 X2]. split; [exact X1|]. intros E. apply hit_no. intros E2. cbn [walk first_cond]. rewrite E2. cbn [bind].
    apply (hall_bind P (HA:=holds_prod P expr bool)); [auto|]. intros [t1 h1] [K1 _]. hn. her.
Qed.
Lemma free_hx e : hx P e -> contains v e = false.
Proof. intros H. destruct (contains v e) eqn:C; auto. exfalso. apply names_contains in C. now apply (H v C). Qed.
End Walk.

(** ** C98 *)
(** If no product in e is one LinearUSub rescales, the new integrand does not mention the old variable, except
    where the derivative of the substitution does. *)
Theorem c98_variable c m n rng v y e u g : y <> v ->
  gcontains (rescaled (PropsC.PF c m) v) e = false ->
  linear_usub (PropsC.PF c m) rng n v y e = Ok (Some (u, g)) ->
  (forall du, diffE (PropsC.PF c m) n v u = Ok du -> contains v du = false) -> contains v g = false.
Proof.
  intros N G H D. set (fk := PropsC.PF c m) in *. unfold linear_usub in H. destruct (Nat.ltb _ 1) eqn:L; [discriminate|].
  apply bind_ok in H as ([b [ou ic]] & Hc & H). destruct b; [|discriminate]. destruct ou as [w|]; [|discriminate].
  destruct (check_good c m v y N e _ _ G Hc) as (A1 & _ & _ & A4). cbn [snd fst] in *. subst ic.
  apply bind_ok in H as (du & Hdu & H). apply bind_ok in H as (g0 & Hg0 & H). apply bind_ok in H as (g1 & Hg1 & H). apply bind_ok in H as ([a b] & Hr & H). injection H as <- <-.
  change (Ok (w, g1) = Ok (a, b)) in Hr. injection Hr as <- <-.
  assert (P0 : hx (within (fun s => s <> v)) g0).
  { pose proof (A4 w (fun _ => eq_refl)) as W. unfold replaceE, replace_factory, replace_factory_list in Hg0. apply bind_ok in Hg0 as ([r h] & E & Hg0). injection Hg0 as ->.
    change (PropsC.PF c m) with fk in W. rewrite E in W. exact (proj1 W). }
  assert (Pd : hx (within (fun s => s <> v)) du) by (apply free_ok; now apply D).
  pose proof (op_div_h (within (fun s => s <> v)) (within_her _) fk (fh_kern _ _ (F_h _ (within_her _) _ _ _)) g0 du P0 Pd) as W.
  rewrite Hg1 in W. destruct (contains v g1) eqn:C; auto. exfalso. apply names_contains in C. now apply (W v C).
Qed.

(** Putting y for sin(v), cos(v) or tan(v), and sin(y) or tan(y) for v, always eliminates v. *)
Theorem c98_trig c m rng v y e u g : y <> v -> trig_usub (PropsC.PF c m) rng v y e = Ok (Some (u, g)) -> contains v g = false.
Proof.
  intros N H. set (fk := PropsC.PF c m) in *. unfold trig_usub in H. destruct (trig_key v e) as [f|] eqn:K; [|discriminate]. cbv zeta in H.
  apply bind_ok in H as (g0 & Hg0 & H). apply bind_ok in H as (d & Hd & H). apply bind_ok in H as (g1 & Hg1 & H). 
  assert (E : Ok (Some (ETrig f (ESym v), g1)) = Ok (Some (u, g)) :> res (option (expr * expr))) by exact H. injection E as <- <-.
  assert (C : countE (ETrig f (ESym v)) e = countE (ESym v) e).
  { unfold trig_key in K. cbv zeta in K.
    destruct (Nat.leb 1 (countE (ETrig Sin (ESym v)) e) && Nat.eqb _ _) eqn:E1; [injection K as <-; apply andb_prop in E1 as [_ E1]; now apply Nat.eqb_eq|].
    destruct (Nat.leb 1 (countE (ETrig Cos (ESym v)) e) && Nat.eqb _ _) eqn:E2; [injection K as <-; apply andb_prop in E2 as [_ E2]; now apply Nat.eqb_eq|].
    destruct (Nat.leb 1 (countE (ETrig Tan (ESym v)) e) && Nat.eqb _ _) eqn:E3; [injection K as <-; apply andb_prop in E3 as [_ E3]; now apply Nat.eqb_eq|discriminate]. }
  pose proof (proj2 (count_trig c m v y N f e) C) as W.
  assert (P0 : hx (within (fun s => s <> v)) g0).
  { unfold replaceE, replace_factory, replace_factory_list in Hg0. apply bind_ok in Hg0 as ([r h] & E & Hg0). injection Hg0 as ->.
    change (PropsC.PF c m) with fk in W. rewrite E in W. exact (proj1 W). }
  pose proof (F_h (within (fun s => s <> v)) (within_her _) nodom (faithful c) m) as HF. change (F nodom (faithful c) m) with fk in HF.
  assert (Pd : hx (within (fun s => s <> v)) d).
  { pose proof (trig_dy_h (within (fun s => s <> v)) (within_her _) fk HF f y (y_free v y N)) as Wd. rewrite Hd in Wd. exact Wd. }
  apply (free_hx v). pose proof (op_mul_h (within (fun s => s <> v)) (within_her _) fk (fh_kern _ _ HF) g0 d P0 Pd) as W1. rewrite Hg1 in W1. exact W1.
Qed.

Theorem c98_inverse_trig c m rng v y e u g : y <> v -> inv_usub (PropsC.PF c m) rng v y e = Ok (Some (u, g)) -> contains v g = false.
Proof.
  intros N H. set (fk := PropsC.PF c m) in *. unfold inv_usub in H. apply bind_ok in H as ([f|] & _ & H); [|discriminate].
  apply bind_ok in H as (d & Hd & H). apply bind_ok in H as (x & Hx & H). apply bind_ok in H as (g0 & Hg0 & H). apply bind_ok in H as (g1 & Hg1 & H).
  apply bind_ok in H as (w & _ & H).
  assert (E : Ok (Some (w, g1)) = Ok (Some (u, g)) :> res (option (expr * expr))) by exact H. injection E as <- <-.
  pose proof (F_h (within (fun s => s <> v)) (within_her _) nodom (faithful c) m) as HF. change (F nodom (faithful c) m) with fk in HF.
  pose proof (y_free v y N) as Hy.
  assert (Px : hx (within (fun s => s <> v)) x).
  { pose proof (fh_trig _ _ HF f (ESym y) Hy) as W. rewrite Hx in W. exact W. }
  assert (Pd : hx (within (fun s => s <> v)) d).
  { assert (W : hall (within (fun s => s <> v)) (match f with Sin => k_trig fk Cos (ESym y) | _ => s <- k_trig fk Sec (ESym y);; op_pow fk s (ERat 2) end)) by (pose proof (within_her (fun s => s <> v)) as HP; pose proof (fh_kern _ _ HF) as HK; destruct f; her).
    rewrite Hd in W. exact W. }
  assert (P0 : hx (within (fun s => s <> v)) g0).
  { assert (W : hall (within (fun s => s <> v)) (replaceE fk e (ESym v) x)).
    { apply (replaceE_h2 (within (fun _ => True)) (within (fun s => s <> v)) (within_her _) (within_her _) fk HF); [intros s _; exact Logic.I|exact Px|].
      intros s _ E s' [<-|[]] ->. change (Ok (eeqb (ESym v) (ESym v)) = Ok false) in E. now rewrite eeqb_refl in E. } rewrite Hg0 in W. exact W. }
  apply (free_hx v). pose proof (op_mul_h (within (fun s => s <> v)) (within_her _) fk (fh_kern _ _ HF) g0 d P0 Pd) as W1. rewrite Hg1 in W1. exact W1.
Qed.

(** The condition matters: in  sin(x/6) cos(x^2/36)  the first factor gives u = x/6, the second is accepted
    because x^2/36 would be rescaled to (x/6)^2, but it is not rewritten, and integrate() takes what is left of x
    in it for a constant. *)
Local Notation sx := (ESym "x").
Definition leftover : expr := EProd [ETrig Sin (EProd [ERat (1#6); sx]); ETrig Cos (EProd [ERat (1#36); EPow sx (ERat 2)])].
Local Open Scope R_scope.
Theorem c98_leftover_refuted : exists u g F,
  k_prod (PropsC.PF exact_cfg 30) [ETrig Sin (EProd [ERat (1#6); sx]); ETrig Cos (EProd [ERat (1#36); EPow sx (ERat 2)])] = Ok leftover /\
  linear_usub (PropsC.PF exact_cfg 30) (fun _ _ => true) 12 "x" "u" leftover = Ok (Some (u, g)) /\ contains "x" g = true /\
  integrate (PropsC.PF exact_cfg 30) (fun _ _ => true) unm 12 false 25 true leftover "x" = Ok (Some F) /\
  forall rho, ~ is_derive (fun s => ev (upd rho "x" s) F) 1 (ev (upd rho "x" 1) leftover).
Proof.
  eexists _, _, _. split; [vm_compute; reflexivity|]. split; [vm_compute; reflexivity|]. split; [reflexivity|]. split; [vm_compute; reflexivity|].
  intros rho H.
  assert (P2 : forall t, rpow t (Q2R 2) = t * t).
  { intros t. replace (Q2R 2) with (IZR 2) by (unfold Q2R; cbn [Qnum Qden]; field). rewrite rpow_int by (right; lia). rewrite <- pow_powerRZ with (n:=2%nat) || change (powerRZ t 2) with (t ^ 2); unfold pow; ring. }
  assert (D : is_derive (fun s => -6 * cos (s / 6) * cos (s * s / 36)) 1 (sin (1/6) * cos (1/36))).
  { replace (sin (1/6) * cos (1/36)) with (ev (upd rho "x" 1) leftover).
    - eapply is_derive_ext; [|exact H]. intros t. cbn [ev map Rsum Rprod tev fold_right]. rewrite ?upd_eq, ?P2.
      replace (Q2R (1#6) * (t * 1)) with (t / 6) by (unfold Q2R; cbn; field). replace (Q2R (1#36) * (t * t * 1)) with (t * t / 36) by (unfold Q2R; cbn; field).
      replace (Q2R (-6)) with (-6) by (unfold Q2R; cbn; field). change (@eq R (-6 * (cos (t / 6) * (cos (t * t / 36) * 1))) (-6 * cos (t / 6) * cos (t * t / 36))); ring.
    - unfold leftover. cbn [ev map Rsum Rprod tev fold_right]. rewrite ?upd_eq, ?P2.
      replace (Q2R (1#6) * (1 * 1)) with (1 / 6) by (unfold Q2R; cbn; field). replace (Q2R (1#36) * (1 * 1 * 1)) with (1 / 36) by (unfold Q2R; cbn; field). ring. }
  assert (D2 : is_derive (fun s => -6 * cos (s / 6) * cos (s * s / 36)) 1 (sin (1/6) * cos (1/36) + 1/3 * cos (1/6) * sin (1/36))).
  { auto_derive; [exact Logic.I|]. replace (1 * 1 * / 36) with (1/36) by field. replace (1 * / 6) with (1/6) by field. field. }
  apply is_derive_unique in D. apply is_derive_unique in D2. rewrite D in D2.
  assert (C : 0 < cos (1/6)) by (apply cos_gt_0; pose proof PI_RGT_0; pose proof PI2_1; unfold PI2 in *; Lra.lra).
  assert (S' : 0 < sin (1/36)) by (apply sin_gt_0; pose proof PI_RGT_0; pose proof PI2_1; unfold PI2 in *; Lra.lra).
  pose proof (Rmult_lt_0_compat _ _ C S'). Lra.lra.
Qed.

(** both cases: u = 2 x + 1 in  sin(2 x + 1)^3 , which satisfies the condition, and the leftover above, which does not *)
Example c98_ex : let e := EPow (ETrig Sin (ESum [EProd [ERat 2; sx]; ERat 1])) (ERat 3) in
  gcontains (rescaled (PropsC.PF exact_cfg 30) "x") e = false /\
  (exists g, linear_usub (PropsC.PF exact_cfg 30) (fun _ _ => true) 12 "x" "u" e = Ok (Some (ESum [EProd [ERat 2; sx]; ERat 1], g)) /\
     contains "x" g = false /\ contains "u" g = true) /\
  diffE (PropsC.PF exact_cfg 30) 12 "x" (ESum [EProd [ERat 2; sx]; ERat 1]) = Ok (ERat 2) /\
  gcontains (rescaled (PropsC.PF exact_cfg 30) "x") leftover = true.
Proof. cbv zeta. split; [vm_compute; reflexivity|]. split; [eexists; split; [vm_compute; reflexivity|split; vm_compute; reflexivity]|]. split; vm_compute; reflexivity. Qed.
Example c98_ex2 :
  (exists g, trig_usub (PropsC.PF exact_cfg 30) (fun _ _ => true) "x" "u" (EPow (ETrig Sin sx) (ERat 3)) = Ok (Some (ETrig Sin sx, g)) /\ contains "u" g = true) /\
  (exists u g, inv_usub (PropsC.PF exact_cfg 30) (fun _ _ => true) "x" "u" (EPow (ESum [EPow sx (ERat 2); ERat 1]) (ERat (-2))) = Ok (Some (u, g)) /\ contains "u" g = true).
Proof. split; [eexists|eexists _, _]; (split; [vm_compute; reflexivity|vm_compute; reflexivity]). Qed.
