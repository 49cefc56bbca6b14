(** * SearchSound: whatever solution the search attaches to a node is an antiderivative of what the
    node stands for. *)
From Coquelicot Require Import Coquelicot.
From Verif Require Export SearchMono.
Close Scope R_scope.
Open Scope nat_scope.

Ltac splits := repeat match goal with |- _ /\ _ => split end.

Lemma nth_setn h f : forall i j, nth_error (setn h i f) j =
  if Nat.eqb i j then option_map f (nth_error h j) else nth_error h j.
Proof.
  induction h as [|q h IH]; intros i j.
  - simpl. destruct j; destruct (Nat.eqb i _); reflexivity.
  - destruct i as [|i], j as [|j]; try reflexivity. simpl. apply IH.
Qed.
Lemma setn_length h f : forall i, List.length (setn h i f) = List.length h.
Proof. induction h as [|q h IH]; intros [|i]; simpl; auto. Qed.
Lemma get_ok h i q : get h i = Ok q -> nth_error h i = Some q.
Proof. unfold get. destruct (nth_error h i); congruence. Qed.
Lemma nth_lt {A} (h : list A) i q : nth_error h i = Some q -> i < List.length h.
Proof. intros H. apply nth_error_Some. congruence. Qed.
Lemma nth_app_l {A} (h cs : list A) i q : nth_error h i = Some q -> nth_error (h ++ cs) i = Some q.
Proof. intros H. rewrite nth_error_app1; auto. now apply nth_lt in H. Qed.

(** what never changes in a node *)
Definition core (q : node) : expr * string * option tr * option nat := (nd_e q, nd_v q, nd_t q, nd_p q).
(** nodes are only added, and keep their core *)
Definition ext (h h' : heap) : Prop :=
  forall i q, nth_error h i = Some q -> exists q', nth_error h' i = Some q' /\ core q' = core q.
Lemma ext_refl h : ext h h.
Proof. intros i q H. eauto. Qed.
Lemma ext_trans a b c : ext a b -> ext b c -> ext a c.
Proof. intros H1 H2 i q H. apply H1 in H as (q1 & H & E1). apply H2 in H as (q2 & H & E2). exists q2. split; auto. congruence. Qed.
Lemma ext_setn h i f : (forall q, core (f q) = core q) -> ext h (setn h i f).
Proof.
  intros Hf j q H. rewrite nth_setn. destruct (Nat.eqb i j); [|eauto]. rewrite H. simpl. eauto.
Qed.
Lemma ext_append h p cs : ext h (append h p cs).
Proof.
  intros j q H. unfold append. rewrite nth_setn. rewrite (nth_app_l _ _ _ _ H).
  destruct (Nat.eqb p j); simpl; eauto.
Qed.

Section Sound.
Context (B : box) (fk : fkern) (HS : BSound B fk) (rng : string -> expr -> bool) (HR : rng_ok B rng)
  (nm : nat -> string) (n : nat) (rho0 : env) (H0 : inB B rho0).

Lemma sg0 {A} b (r : res A) a : guard (negb (k_strict fk) || b) r = Ok a -> b = true /\ r = Ok a.
Proof. apply (sg_ok rho0 fk (HS rho0 H0)). Qed.

(** [T i] is the function node [i] has to be an antiderivative of. *)
Definition Edge (T : nat -> env -> R) (h : heap) (m : node) (p : nat) (q : node) (i : nat) : Prop :=
  match nd_t q with
  | Some (TPull c) => nd_v q = nd_v m /\ contains (nd_v m) c = false /\ wdB B c /\
                      forall r, inB B r -> T p r = (ev r c * T i r)%R
  | Some (TUSub _ u) => USub B (nd_v m) (nd_v q) u (T p) (T i)
  | Some (TId _) => nd_v q = nd_v m /\ forall r, inB B r -> T p r = T i r
  | Some TAdd => (forall j, In j (nd_kids m) -> exists q', nth_error h j = Some q' /\ nd_t q' = Some TAdd /\ nd_v q' = nd_v m) /\
                 forall r, inB B r -> T p r = Rsum (map (fun j => T j r) (nd_kids m))
  | None => False
  end.

Record NI (T : nat -> env -> R) (h : heap) (i : nat) (q : node) : Prop := {
  ni_wd : wdB B (nd_e q);
  ni_open : openv B (nd_v q);
  ni_T : nd_only q = None -> forall r, inB B r -> T i r = ev r (nd_e q);
  ni_sol : forall F, nd_sol q = Some F -> AntiOn B (nd_v q) (T i) F;
  ni_root : nd_p q = None -> nd_only q = None;
  ni_kids : forall k, In k (nd_kids q) -> i < k /\ exists q', nth_error h k = Some q' /\ nd_p q' = Some i;
  ni_par : forall p, nd_p q = Some p -> exists m, nth_error h p = Some m /\ p < i /\ In i (nd_kids m) /\
                     (allowed m i = true -> Edge T h m p q i) }.

Definition InvT (T : nat -> env -> R) (h : heap) : Prop := forall i q, nth_error h i = Some q -> NI T h i q.
Definition Inv (h : heap) : Prop := exists T, InvT T h.
(** one step of the search *)
Definition Step (h h' : heap) : Prop := Inv h' /\ ext h h'.

(** *** edits that keep the tree *)
Lemma upd_inv T h i f : InvT T h ->
  (forall q, nth_error h i = Some q -> core (f q) = core q /\ nd_kids (f q) = nd_kids q /\ nd_only (f q) = nd_only q /\
     forall F, nd_sol (f q) = Some F -> AntiOn B (nd_v q) (T i) F) ->
  InvT T (setn h i f).
Proof.
  intros I Hf.
  assert (G : forall j q, nth_error h j = Some q -> exists q', nth_error (setn h i f) j = Some q' /\ core q' = core q /\
            nd_kids q' = nd_kids q /\ nd_only q' = nd_only q).
  { intros j q H. rewrite nth_setn. destruct (Nat.eqb_spec i j) as [->|].
    - rewrite H. simpl. destruct (Hf _ H) as (A1 & A2 & A3 & _). eauto.
    - eauto. }
  assert (Gb : forall j q', nth_error (setn h i f) j = Some q' -> exists q, nth_error h j = Some q /\ core q' = core q /\
            nd_kids q' = nd_kids q /\ nd_only q' = nd_only q /\
            forall F, nd_sol q' = Some F -> AntiOn B (nd_v q) (T j) F).
  { intros j q' H. rewrite nth_setn in H. destruct (Nat.eqb_spec i j) as [->|].
    - destruct (nth_error h j) as [q|] eqn:E; simpl in H; [|discriminate]. injection H as <-.
      destruct (Hf _ eq_refl) as (A1 & A2 & A3 & A4). exists q. auto.
    - exists q'. refine (conj H (conj eq_refl (conj eq_refl (conj eq_refl _)))). intros F HF. now apply (I _ _ H). }
  intros j q' H. apply Gb in H as (q & H & C & K & O & S). destruct (I _ _ H) as [a b c d e k p].
  unfold core in C. injection C as Ce Cv Ct Cp.
  constructor; rewrite ?Ce, ?Cv, ?Cp, ?K, ?O; auto.
  - intros k0 Hk. apply k in Hk as (L & q1 & Hk & P). split; auto. apply G in Hk as (q2 & Hk & C2 & _).
    unfold core in C2. injection C2 as _ _ _ C2. exists q2. split; auto. congruence.
  - intros p0 Hp. apply p in Hp as (m & Hm & L & Hin & E). apply G in Hm as (m' & Hm & C2 & K2 & O2).
    unfold core in C2. injection C2 as _ Cv2 _ _.
    exists m'. rewrite K2. splits; auto. unfold allowed in *. rewrite O2. intros Ha. apply E in Ha.
    unfold Edge in *. rewrite Ct, Cv, Cv2, K2. destruct (nd_t q) as [[]|]; auto.
    destruct Ha as [Ha1 Ha2]. split; auto. intros j0 Hj. apply Ha1 in Hj as (q1 & Hj & T1 & V1).
    apply G in Hj as (q2 & Hj & C3 & _). unfold core in C3. injection C3 as _ Cv3 Ct3 _. exists q2. splits; auto; congruence.
Qed.

Lemma set_ty_step h i t : Inv h -> Step h (setn h i (set_ty t)).
Proof.
  intros [T I]. split; [|apply ext_setn; reflexivity]. exists T. apply upd_inv; auto.
  intros q H. refine (conj eq_refl (conj eq_refl (conj eq_refl _))). intros F HF. now apply (I _ _ H).
Qed.
Lemma set_sol_inv T h i F : InvT T h -> (forall q, nth_error h i = Some q -> AntiOn B (nd_v q) (T i) F) ->
  InvT T (setn h i (set_sol F)).
Proof.
  intros I H. apply upd_inv; auto. intros q Hq. refine (conj eq_refl (conj eq_refl (conj eq_refl _))). intros F' HF. cbn in HF. injection HF as <-. auto.
Qed.

(** *** new children *)
Lemma append_inv T T' h p q cs : InvT T h -> nth_error h p = Some q ->
  (forall j, j < List.length h -> T' j = T j) ->
  no_add h q = true ->
  (forall k c, nth_error cs k = Some c -> let i := List.length h + k in
     wdB B (nd_e c) /\ openv B (nd_v c) /\ (nd_only c = None -> forall r, inB B r -> T' i r = ev r (nd_e c)) /\
     (forall F, nd_sol c = Some F -> AntiOn B (nd_v c) (T' i) F) /\ nd_kids c = [] /\ nd_p c = Some p /\
     (allowed q i = true ->
        Edge T' (append h p cs) (add_kids (seq (List.length h) (List.length cs)) q) p c i)) ->
  InvT T' (append h p cs).
Proof.
  intros I Hp HT HN HC.
  set (n0 := List.length h) in *. set (ks := seq n0 (List.length cs)) in *.
  assert (Old : forall j m, nth_error h j = Some m ->
            nth_error (append h p cs) j = Some (if Nat.eqb p j then add_kids ks m else m)).
  { intros j m H. unfold append. rewrite nth_setn, (nth_app_l _ _ _ _ H). fold n0 ks. destruct (Nat.eqb p j); reflexivity. }
  assert (New : forall k c, nth_error cs k = Some c -> nth_error (append h p cs) (n0 + k) = Some c).
  { intros k c H. unfold append. rewrite nth_setn. apply nth_lt in Hp. fold n0 in Hp.
    destruct (Nat.eqb_spec p (n0 + k)); [lia|].
    rewrite nth_error_app2 by (fold n0; lia). fold n0. replace (n0 + k - n0) with k by lia. auto. }
  assert (KK : forall j m, In j (nd_kids (if Nat.eqb p j then add_kids ks m else m)) -> True) by auto. clear KK.
  assert (EO : forall m j x i, nth_error h j = Some m -> nth_error h i = Some x -> nd_p x = Some j ->
             Edge T h m j x i -> Edge T' (append h p cs) (if Nat.eqb p j then add_kids ks m else m) j x i).
  { intros m j x i Hm Hx Px E. unfold Edge in *.
    replace (nd_v (if Nat.eqb p j then add_kids ks m else m)) with (nd_v m) by (destruct (Nat.eqb p j); reflexivity).
    rewrite (HT j) by (now apply nth_lt in Hm). rewrite (HT i) by (now apply nth_lt in Hx).
    destruct (nd_t x) as [[]|] eqn:Et; auto. destruct (Nat.eqb_spec p j) as [->|].
    - exfalso. rewrite Hp in Hm. injection Hm as <-. unfold no_add in HN. rewrite forallb_forall in HN.
      destruct (ni_par _ _ _ _ (I _ _ Hx) _ Px) as (m & Hm & _ & Hin & _). rewrite Hp in Hm. injection Hm as <-.
      specialize (HN _ Hin). rewrite Hx in HN. unfold is_add in HN. now rewrite Et in HN.
    - destruct E as [E1 E2]. split.
      + intros j0 Hj. apply E1 in Hj as (q' & Hj & A1 & A2). rewrite (Old _ _ Hj). eexists; split; [reflexivity|].
        destruct (Nat.eqb p j0); auto.
      + intros r Hr. rewrite E2; auto. f_equal. apply map_ext_in. intros j0 Hj. apply E1 in Hj as (q' & Hj & _).
        rewrite HT; auto. now apply nth_lt in Hj. }
  intros i x Hx. destruct (Nat.ltb_spec i n0) as [L|L].
  - destruct (nth_error h i) as [x0|] eqn:E; [|apply nth_error_None in E; fold n0 in E; lia].
    rewrite (Old _ _ E) in Hx. injection Hx as <-.
    destruct (I _ _ E) as [a b c d e k par].
    assert (Hf : core (if Nat.eqb p i then add_kids ks x0 else x0) = core x0 /\
                 nd_only (if Nat.eqb p i then add_kids ks x0 else x0) = nd_only x0 /\
                 nd_sol (if Nat.eqb p i then add_kids ks x0 else x0) = nd_sol x0) by (destruct (Nat.eqb p i); auto).
    destruct Hf as (C & O & S). unfold core in C. injection C as Ce Cv Ct Cp.
    constructor; rewrite ?Ce, ?Cv, ?Cp, ?O, ?S, ?(HT i) by (fold n0; lia); auto.
    + intros k0 Hk.
      assert (Hk' : In k0 (nd_kids x0) \/ p = i /\ In k0 ks).
      { destruct (Nat.eqb_spec p i); auto. cbn in Hk. apply in_app_iff in Hk. tauto. }
      destruct Hk' as [Hk'|[-> Hk']].
      * apply k in Hk' as (L' & q' & Hk' & P). split; auto. rewrite (Old _ _ Hk'). eexists; split; [reflexivity|].
        destruct (Nat.eqb p k0); auto.
      * unfold ks in Hk'. apply in_seq in Hk' as [A1 A2]. split; [lia|].
        destruct (nth_error cs (k0 - n0)) as [c0|] eqn:Ec; [|apply nth_error_None in Ec; lia].
        exists c0. replace k0 with (n0 + (k0 - n0)) by lia. split; [now apply New|].
        now apply (HC _ _ Ec).
    + intros p0 P0. apply par in P0 as P1. destruct P1 as (m & Hm & L' & Hin & HE).
      rewrite (Old _ _ Hm). eexists; split; [reflexivity|]. splits; auto.
      * destruct (Nat.eqb p p0); auto. cbn. apply in_app_iff. auto.
      * intros Ha. assert (Ha' : allowed m i = true) by (destruct (Nat.eqb p p0); auto).
        pose proof (EO _ _ _ _ Hm E P0 (HE Ha')) as Q. unfold Edge in Q |- *. now rewrite Ct, Cv.
  - destruct (nth_error cs (i - n0)) as [c0|] eqn:Ec.
    2:{ apply nth_lt in Hx. unfold append in Hx. rewrite setn_length, app_length in Hx. fold n0 in Hx.
        apply nth_error_None in Ec. lia. }
    assert (Ei : i = n0 + (i - n0)) by lia.
    pose proof (New _ _ Ec) as Hn. rewrite <- Ei in Hn. rewrite Hn in Hx. injection Hx as <-.
    destruct (HC _ _ Ec) as (C1 & C2 & C3 & C4 & C5 & C6 & C7). cbv zeta in *. rewrite <- Ei in *.
    constructor; auto; try congruence.
    + rewrite C5. intros k [].
    + intros p0 P0. rewrite C6 in P0. injection P0 as <-. rewrite (Old _ _ Hp), Nat.eqb_refl. eexists; split; [reflexivity|].
      apply nth_lt in Hp as Lp. fold n0 in Lp. splits; auto; [lia|].
      cbn. apply in_app_iff. right. unfold ks. apply in_seq. apply nth_lt in Ec. lia.
Qed.

Lemma USub_ext v y u f g f' g' : (forall r, inB B r -> f r = f' r) -> (forall r, inB B r -> g r = g' r) ->
  USub B v y u f g -> USub B v y u f' g'.
Proof.
  intros E1 E2 (A1 & A2 & A3 & A4). unfold USub. splits; auto. intros rho H.
  destruct (A4 rho H) as (C1 & C2 & du & C3 & C4). splits; auto.
  exists du. split; auto. rewrite <- E1, <- E2; auto. now apply inB_upd.
Qed.

(** what a new child has to satisfy; [e0], [v0] are the integrand and variable of its parent *)
Definition child_ok (e0 : expr) (v0 : string) (t : tr) (e : expr) (v : string) : Prop :=
  wdB B e /\ openv B v /\
  match t with
  | TPull c => v = v0 /\ contains v0 c = false /\ wdB B c /\ forall r, inB B r -> ev r e0 = (ev r c * ev r e)%R
  | TUSub _ u => USub B v0 v u (fun r => ev r e0) (fun r => ev r e)
  | TId _ => v = v0 /\ forall r, inB B r -> ev r e0 = ev r e
  | TAdd => False
  end.

Definition upT (T : nat -> env -> R) (n0 : nat) (f : env -> R) : nat -> env -> R :=
  fun j => if Nat.eqb j n0 then f else T j.
Lemma upT_eq T n0 f : upT T n0 f n0 = f.
Proof. unfold upT. now rewrite Nat.eqb_refl. Qed.
Lemma upT_ne T n0 f j : j <> n0 -> upT T n0 f j = T j.
Proof. unfold upT. destruct (Nat.eqb_spec j n0); tauto. Qed.

(** appending one child that is not a summand *)
Lemma append1 T h p q c f : InvT T h -> nth_error h p = Some q -> regular q = true -> no_add h q = true ->
  nd_kids c = [] -> nd_p c = Some p -> wdB B (nd_e c) -> openv B (nd_v c) ->
  (nd_only c = None -> forall r, inB B r -> f r = ev r (nd_e c)) ->
  (forall F, nd_sol c = Some F -> AntiOn B (nd_v c) f F) ->
  match nd_t c with
  | Some (TPull a) => nd_v c = nd_v q /\ contains (nd_v q) a = false /\ wdB B a /\
      forall r, inB B r -> ev r (nd_e q) = (ev r a * f r)%R
  | Some (TUSub _ u) => USub B (nd_v q) (nd_v c) u (fun r => ev r (nd_e q)) f
  | Some (TId _) => nd_v c = nd_v q /\ forall r, inB B r -> ev r (nd_e q) = f r
  | _ => False
  end ->
  InvT (upT T (List.length h) f) (append h p [c]).
Proof.
  intros I Hp Rq NA Ck Cp Cw Co Cf Cs Ct. eapply append_inv; eauto.
  - intros j Hj. apply upT_ne. lia.
  - intros k x Hx. destruct k as [|[|k]]; try discriminate. cbn in Hx. injection Hx as <-. cbv zeta.
    rewrite Nat.add_0_r, upT_eq. splits; auto. intros _. unfold Edge. cbn [nd_v add_kids].
    rewrite upT_eq, upT_ne by (apply nth_lt in Hp; lia).
    assert (TP : forall r, inB B r -> T p r = ev r (nd_e q)).
    { apply (ni_T _ _ _ _ (I _ _ Hp)). unfold regular in Rq. destruct (nd_only q); congruence. }
    destruct (nd_t c) as [[]|]; try contradiction.
    + destruct Ct as (A1 & A2 & A3 & A4). splits; auto. intros r Hr. rewrite TP; auto.
    + eapply USub_ext; [| |exact Ct]; auto. intros r Hr. symmetry. now apply TP.
    + destruct Ct as (A1 & A2). split; auto. intros r Hr. rewrite TP; auto.
Qed.

Lemma add1_step h p e v t h' : Inv h -> add1 fk h p (mkn e v t p) = Ok h' ->
  (forall q, nth_error h p = Some q -> child_ok (nd_e q) (nd_v q) t e v) -> Step h h'.
Proof.
  intros [T I] H HC. unfold add1 in H. apply bind_ok in H as (q & Hq & H). apply get_ok in Hq.
  apply sg0 in H as [G H]. injection H as <-. apply andb_prop in G as [G1 G2].
  destruct (dropped h p _); [split; [now exists T|apply ext_refl]|]. split; [|apply ext_append].
  destruct (HC _ Hq) as (A1 & A2 & A3). exists (upT T (List.length h) (fun r => ev r e)).
  apply (append1 T h p q); auto; cbn; try (intros; discriminate); destruct t; auto.
Qed.

(** summands *)
Lemma filter_le {A} (f : A -> bool) l : List.length (filter f l) <= List.length l.
Proof. induction l as [|a l IH]; simpl; auto. destruct (f a); simpl; lia. Qed.
Lemma filter_all {A} (f : A -> bool) l : List.length (filter f l) = List.length l -> filter f l = l.
Proof.
  induction l as [|a l IH]; simpl; auto. destruct (f a); simpl; intros H.
  - f_equal. apply IH. lia.
  - exfalso. pose proof (filter_le f l). lia.
Qed.
Lemma nth_map_some {A C} (f : A -> C) l k c : nth_error (map f l) k = Some c -> exists a, nth_error l k = Some a /\ c = f a.
Proof. revert k. induction l as [|a l IH]; intros [|k] H; try discriminate; simpl in *; [injection H as <-; eauto|auto]. Qed.
Lemma map_seq_nth {A} (l : list A) (g : nat -> R) (f : A -> R) n0 :
  (forall k a, nth_error l k = Some a -> g (n0 + k) = f a) -> map g (seq n0 (List.length l)) = map f l.
Proof.
  revert n0. induction l as [|a l IH]; intros n0 H; simpl; auto. f_equal.
  - rewrite <- (H 0 a eq_refl). now rewrite Nat.add_0_r.
  - apply IH. intros k b Hk. rewrite <- (H (S k) b Hk). f_equal. lia.
Qed.

(** appending all the summands of a node without children *)
Lemma append_sum T h p q cs (f : nat -> env -> R) : InvT T h -> nth_error h p = Some q -> nd_kids q = [] -> regular q = true ->
  (forall k c, nth_error cs k = Some c -> wdB B (nd_e c) /\ nd_t c = Some TAdd /\ nd_v c = nd_v q /\
     (nd_only c = None -> forall r, inB B r -> f k r = ev r (nd_e c)) /\
     (forall F, nd_sol c = Some F -> AntiOn B (nd_v c) (f k) F) /\ nd_kids c = [] /\ nd_p c = Some p) ->
  (forall r, inB B r -> ev r (nd_e q) = Rsum (map (fun k => f k r) (seq 0 (List.length cs)))) ->
  InvT (fun j => if Nat.ltb j (List.length h) then T j else f (j - List.length h)) (append h p cs).
Proof.
  intros I Hp Kq Rq HC HSum. set (n0 := List.length h). set (T' := fun j => _). assert (Lp := nth_lt _ _ _ Hp).
  assert (TO : forall j, j < n0 -> T' j = T j). { intros j Hj. unfold T'. destruct (Nat.ltb_spec j n0); auto; lia. }
  assert (TN : forall k, T' (n0 + k) = f k).
  { intros k. unfold T'. destruct (Nat.ltb_spec (n0 + k) n0); [lia|]. f_equal. lia. }
  eapply append_inv; eauto.
  - unfold no_add. now rewrite Kq.
  - intros k c Hc. cbv zeta. destruct (HC _ _ Hc) as (A1 & A2 & A3 & A4 & A5 & A6 & A7).
    fold n0. rewrite TN, A3. splits; auto; [now apply (I _ _ Hp)|rewrite <- A3; auto|].
    intros _. unfold Edge. rewrite A2. cbn [nd_kids nd_v add_kids]. rewrite Kq. cbn [app]. split.
    + intros j Hj. apply in_seq in Hj as [J1 J2].
      destruct (nth_error cs (j - n0)) as [c0|] eqn:Ec; [|apply nth_error_None in Ec; lia].
      exists c0. destruct (HC _ _ Ec) as (C1 & C2 & C3 & _). splits; auto.
      unfold append. rewrite nth_setn. fold n0. destruct (Nat.eqb_spec p j); [fold n0 in Lp; lia|].
      rewrite nth_error_app2; auto.
    + intros r Hr. rewrite TO by auto.
      rewrite (ni_T _ _ _ _ (I _ _ Hp)); auto. 2:{ unfold regular in Rq. destruct (nd_only q); congruence. }
      rewrite HSum; auto. f_equal. clear -TN.
      assert (G : forall l a, map (fun k => f k r) (seq a l) = map (fun j => T' j r) (seq (n0 + a) l)).
      { induction l as [|l IH]; intros a; simpl; auto. f_equal; [now rewrite TN|]. rewrite IH. f_equal. f_equal. lia. }
      rewrite (G _ 0). now rewrite Nat.add_0_r.
Qed.

Lemma additivity_step h p v ts h' : Inv h -> additivity fk h p v ts = Ok h' ->
  (forall q, nth_error h p = Some q -> nd_e q = ESum ts /\ nd_v q = v) -> Step h h'.
Proof.
  intros I0 H HC. unfold additivity in H. apply bind_ok in H as (q & Hq & H). apply get_ok in Hq.
  destruct (HC _ Hq) as [Ee Ev]. cbv zeta in H. apply sg0 in H as [G H].
  apply andb_prop in G as [G G3]. apply andb_prop in G as [G1 G2]. apply Nat.eqb_eq in G3.
  rewrite filter_all in H by (rewrite G3; now rewrite map_length). injection H as <-.
  assert (K : nd_kids q = []) by (destruct (nd_kids q); [reflexivity|discriminate]).
  destruct (set_ty_step h p AND I0) as [[T I] E1]. split; [|eapply ext_trans; [exact E1|apply ext_append]].
  set (q1 := set_ty AND q).
  assert (Hq1 : nth_error (setn h p (set_ty AND)) p = Some q1) by (rewrite nth_setn, Nat.eqb_refl, Hq; reflexivity).
  pose proof (ni_wd _ _ _ _ (I _ _ Hq1)) as W. cbn in W. rewrite Ee in W.
  eexists. apply (append_sum T _ p q1 _ (fun k r => match nth_error ts k with Some t => ev r t | None => 0%R end)); auto.
  - intros k c Hc. apply nth_map_some in Hc as (t & Ht & ->). cbn. splits; auto; try discriminate.
    + intros r Hr. apply W in Hr. apply wd_sum in Hr. rewrite Forall_forall in Hr. apply Hr. eapply nth_error_In; eauto.
    + intros _ r Hr. now rewrite Ht.
  - intros r Hr. cbn. rewrite Ee, map_length. cbn [ev]. f_equal. symmetry. apply map_seq_nth. intros k a Hk. simpl. now rewrite Hk.
Qed.

Lemma step_refl h : Inv h -> Step h h.
Proof. split; auto using ext_refl. Qed.
Lemma step_trans a b c : Step a b -> (Inv b -> Step b c) -> Step a c.
Proof. intros [I E] H. destruct (H I) as [I' E']. split; auto. eapply ext_trans; eauto. Qed.
Lemma foldM_step {A} (f : heap -> A -> res heap) l : (forall h a h', Inv h -> f h a = Ok h' -> Step h h') ->
  forall h h', Inv h -> foldM f l h = Ok h' -> Step h h'.
Proof.
  intros Hf. induction l as [|a l IH]; intros h h' I H; cbn [foldM] in H.
  - injection H as <-. now apply step_refl.
  - apply bind_ok in H as (h1 & H1 & H). apply (step_trans _ h1); eauto.
Qed.
Lemma foldM_step2 {A} (f : st -> A -> res st) l : (forall s a s', Inv (fst s) -> f s a = Ok s' -> Step (fst s) (fst s')) ->
  forall s s', Inv (fst s) -> foldM f l s = Ok s' -> Step (fst s) (fst s').
Proof.
  intros Hf. induction l as [|a l IH]; intros h h' I H; cbn [foldM] in H.
  - injection H as <-. now apply step_refl.
  - apply bind_ok in H as (h1 & H1 & H). apply (step_trans _ (fst h1)); eauto.
Qed.

Lemma inv_node h i q : Inv h -> nth_error h i = Some q -> wdB B (nd_e q) /\ openv B (nd_v q).
Proof. intros [T I] H. destruct (I _ _ H); auto. Qed.
Lemma child_id e v k e' : openv B v -> (forall r, inB B r -> good r e e') -> child_ok e v (TId k) e' v.
Proof.
  intros O G. unfold child_ok. splits; auto.
  - intros r Hr. now apply G.
  - intros r Hr. symmetry. now apply G.
Qed.
Lemma add_id_step k h i v o h' : Inv h -> add_id fk k h i v o = Ok h' ->
  (forall q, nth_error h i = Some q -> nd_v q = v /\
     forall e', o = Some e' -> forall r, inB B r -> good r (nd_e q) e') -> Step h h'.
Proof.
  intros I H HC. unfold add_id in H. destruct o as [e'|]; [|injection H as <-; now apply step_refl].
  eapply add1_step; eauto. intros q Hq. destruct (HC _ Hq) as [<- G].
  apply child_id; [now apply (inv_node _ _ _ I Hq)|]. now apply G.
Qed.

Lemma safe_step_step s i s' : Inv (fst s) -> safe_step fk rng nm n s i = Ok s' -> Step (fst s) (fst s').
Proof.
  destruct s as [h x]. cbn [fst]. intros I H. unfold safe_step in H. apply bind_ok in H as (q & Hq & H). apply get_ok in Hq.
  cbv zeta in H. destruct (inv_node _ _ _ I Hq) as [W O].
  assert (NE : exists rho, inB B rho) by eauto.
  assert (K : (exists ts, nd_e q = ESum ts) \/ 
     (o <- pull_const fk (nd_v q) (nd_e q);;
      match o with
      | Some (c, r) => h' <- add1 fk h i (mkn r (nd_v q) (TPull c) i);; Ok (h', x)
      | None =>
          o <- partial_fractions fk n (nd_v q) (nd_e q);;
          match o with
          | Some r => h' <- add_id fk IPartial h i (nd_v q) (Some r);; Ok (h', x)
          | None =>
              o <- poly_division fk n (nd_v q) (nd_e q);;
              match o with
              | Some r => h' <- add_id fk IPolyDiv h i (nd_v q) (Some r);; Ok (h', x)
              | None =>
                  o <- (if is_id IComplete (last_tr ex_pa h i) then Ok None else expand_step fk n (nd_e q));;
                  match o with
                  | Some r => h' <- add_id fk IExpand h i (nd_v q) (Some r);; Ok (h', x)
                  | None =>
                      o <- linear_usub fk rng n (nd_v q) (nm x) (nd_e q);;
                      match o with
                      | Some (u, g) => h' <- add1 fk h i (mkn g (nm x) (TUSub ULin u) i);; Ok (h', S x)
                      | None => Ok (h, x)
                      end
                  end
              end
          end
      end) = Ok s').
  { destruct (nd_e q); eauto. }
  destruct K as [[ts E]|K].
  - rewrite E in H. apply bind_ok in H as (h' & H' & H). injection H as <-. cbn [fst].
    eapply additivity_step; eauto. intros q' Hq'. rewrite Hq in Hq'. injection Hq' as <-. auto.
  - clear H. rename K into H. 
    assert (AI : forall k e', (forall r, inB B r -> good r (nd_e q) e') -> forall h', add_id fk k h i (nd_v q) (Some e') = Ok h' -> Step h h').
    { intros k e' G h' H'. eapply add_id_step; eauto. intros q' Hq'. rewrite Hq in Hq'. injection Hq' as <-. split; auto.
      intros e1 E1. now injection E1 as <-. }
    apply bind_ok in H as (o & Ho & H). destruct o as [[c r]|].
    { apply bind_ok in H as (h' & H' & H). injection H as <-. eapply add1_step; eauto.
      intros q' Hq'. rewrite Hq in Hq'. injection Hq' as <-.
      assert (PC : forall rho, inB B rho -> contains (nd_v q) c = false /\ wd rho c /\ wd rho r /\ ev rho (nd_e q) = (ev rho c * ev rho r)%R).
      { intros rho Hr. apply (pull_const_sound rho fk (HS rho Hr) (nd_v q)); auto. }
      unfold child_ok. splits; auto.
      - intros r0 Hr. now apply PC.
      - now apply (PC rho0).
      - intros r0 Hr. now apply PC.
      - intros r0 Hr. now apply PC. }
    apply bind_ok in H as (o & Ho2 & H). destruct o as [r|].
    { apply bind_ok in H as (h' & H' & H). injection H as <-. eapply AI; eauto.
      intros r0 Hr. eapply (partial_fractions_sound r0 fk (HS r0 Hr)); eauto. }
    apply bind_ok in H as (o & Ho3 & H). destruct o as [r|].
    { apply bind_ok in H as (h' & H' & H). injection H as <-. eapply AI; eauto.
      intros r0 Hr. eapply (poly_division_sound r0 fk (HS r0 Hr)); eauto. }
    apply bind_ok in H as (o & Ho4 & H). destruct o as [r|].
    { apply bind_ok in H as (h' & H' & H). injection H as <-. eapply AI; eauto. destruct (is_id _ _); [discriminate|].
      intros r0 Hr. eapply (expand_step_sound r0 fk (HS r0 Hr)); eauto. }
    apply bind_ok in H as (o & Ho5 & H). destruct o as [[u g]|].
    { apply bind_ok in H as (h' & H' & H). injection H as <-. eapply add1_step; eauto.
      intros q' Hq'. rewrite Hq in Hq'. injection Hq' as <-.
      destruct (linear_usub_sound B (nd_v q) O fk HS rng HR (nm x) NE n _ _ _ Ho5 W) as [A1 A2].
      unfold child_ok. splits; auto. apply A2. }
    injection H as <-. now apply step_refl.
Qed.

Lemma safely_step k : forall s i s', Inv (fst s) -> safely fk rng nm n k s i = Ok s' -> Step (fst s) (fst s').
Proof.
  induction k as [|k IH]; intros s i s' I H; cbn [safely] in H; [discriminate|].
  apply bind_ok in H as (s1 & H1 & H). apply bind_ok in H as (q & Hq & H).
  apply (step_trans _ (fst s1)); [now apply safe_step_step with (i := i)|]. intros I1.
  eapply foldM_step2; eauto.
Qed.

Lemma check_solvable_step h i h' : Inv h -> check_solvable fk h i = Ok h' -> Step h h'.
Proof.
  intros I H. unfold check_solvable in H. apply bind_ok in H as (q & Hq & H). apply get_ok in Hq.
  apply bind_ok in H as (o & Ho & H). destruct o as [a|]; [|injection H as <-; now apply step_refl].
  apply sg0 in H as [G H]. injection H as <-. destruct (inv_node _ _ _ I Hq) as [W O].
  apply (step_trans _ (setn h i (set_ty SOLUTION))); [now apply set_ty_step|]. intros [T I1].
  split; [|apply ext_setn; reflexivity]. exists T. apply set_sol_inv; auto.
  assert (Hq1 : nth_error (setn h i (set_ty SOLUTION)) i = Some (set_ty SOLUTION q)) by (rewrite nth_setn, Nat.eqb_refl, Hq; reflexivity).
  intros q' Hq'. rewrite Hq1 in Hq'. injection Hq' as <-. cbn [nd_v set_ty].
  eapply AntiOn_fext; [apply (table_sound B (nd_v q) O fk HS _ _ Ho W)|].
  intros r Hr. symmetry. apply (ni_T _ _ _ _ (I1 _ _ Hq1)); auto. cbn. unfold regular in G. destruct (nd_only q); congruence.
Qed.

Lemma sols_ok T h v ks l : InvT T h -> sols h ks = Ok l ->
  (forall j, In j ks -> exists q', nth_error h j = Some q' /\ nd_v q' = v) ->
  Forall2 (AntiOn B v) (map T ks) l.
Proof.
  intros I. revert l. induction ks as [|k ks IH]; intros l H HK; cbn [sols] in H.
  - injection H as <-. constructor.
  - apply bind_ok in H as (q & Hq & H). apply get_ok in Hq. destruct (nd_sol q) as [s|] eqn:Es; [|discriminate].
    apply bind_ok in H as (l' & Hl & H). injection H as <-. simpl. constructor.
    + destruct (HK k (or_introl eq_refl)) as (q' & Hq' & <-). rewrite Hq in Hq'. injection Hq' as <-.
      now apply (ni_sol _ _ _ _ (I _ _ Hq)).
    + apply IH; auto. intros j Hj. apply HK. now right.
Qed.

Lemma backward_inv T h i h' : InvT T h -> backward fk h i = Ok h' -> InvT T h'.
Proof.
  intros I H. unfold backward in H. apply bind_ok in H as (q & Hq & H). apply get_ok in Hq.
  destruct (nd_sol q) as [F|] eqn:Es; [|discriminate]. destruct (nd_t q) as [t|] eqn:Et; [|discriminate].
  destruct (nd_p q) as [p|] eqn:Ep; [|discriminate].
  apply bind_ok in H as (m & Hm & H). apply get_ok in Hm. apply bind_ok in H as (r & Hr & H).
  apply sg0 in H as [G H]. injection H as <-. apply set_sol_inv; auto.
  intros m' Hm'. rewrite Hm in Hm'. injection Hm' as <-.
  destruct (I _ _ Hq) as [_ _ _ Sq _ _ Pq]. apply Sq in Es. apply Pq in Ep as (m' & Hm' & _ & _ & E).
  rewrite Hm in Hm'. injection Hm' as <-. apply E in G. unfold Edge in G. rewrite Et in G.
  pose proof (ni_open _ _ _ _ (I _ _ Hm)) as O.
  destruct t as [c| |k u|k].
  - destruct G as (A1 & A2 & A3 & A4). rewrite A1 in Es. eapply AntiOn_fext; [eapply AntiOn_scale; eauto|].
    intros r0 Hr0. symmetry. auto.
  - destruct G as (A1 & A2). apply bind_ok in Hr as (l & Hl & Hr).
    eapply AntiOn_fext; [refine (AntiOn_sum B (nd_v m) O fk HS _ _ _ (sols_ok T h (nd_v m) _ _ I Hl _) Hr)|].
    + intros j Hj. apply A1 in Hj as (q' & A & _ & C). eauto.
    + intros r0 Hr0. rewrite A2, map_map; auto.
  - apply sg0 in Hr as [C Hr]. eapply usub_back; eauto. now destruct (contains (nd_v m) F).
  - destruct G as (A1 & A2). injection Hr as <-. rewrite A1 in Es. eapply AntiOn_fext; eauto.
    intros r0 Hr0. symmetry. auto.
Qed.
Lemma backward_step h i h' : Inv h -> backward fk h i = Ok h' -> Step h h'.
Proof.
  intros [T I] H. split; [exists T; eapply backward_inv; eauto|].
  unfold backward in H. apply bind_ok in H as (q & Hq & H).
  destruct (nd_sol q) as [F|] eqn:Es; [|discriminate]. destruct (nd_t q) as [t|] eqn:Et; [|discriminate].
  destruct (nd_p q) as [p|] eqn:Ep; [|discriminate].
  apply bind_ok in H as (m & Hm & H). apply bind_ok in H as (r & Hr & H).
  apply sg0 in H as [G H]. injection H as <-. apply ext_setn. reflexivity.
Qed.
Lemma climb_step k : forall h i h', Inv h -> climb fk k h i = Ok h' -> Step h h'.
Proof.
  induction k as [|k IH]; intros h i h' I H; cbn [climb] in H; [discriminate|].
  apply bind_ok in H as (q & Hq & H). destruct (nd_p q) as [p|]; [|injection H as <-; now apply step_refl].
  apply bind_ok in H as (o & Ho & H). destruct o as [h1|]; [|injection H as <-; now apply step_refl].
  unfold catchV in Ho. destruct (backward fk h i) as [a|x|x] eqn:Eb; [|destruct x; discriminate|discriminate].
  injection Ho as ->. apply (step_trans _ h1); [eapply backward_step; eauto|]. intros I1. eapply IH; eauto.
Qed.
Lemma go_backwards_step h h' s : Inv h -> go_backwards fk h = Ok (h', s) -> Step h h' /\
  exists q, nth_error h' 0 = Some q /\ nd_sol q = Some s.
Proof.
  intros I H. unfold go_backwards in H. apply bind_ok in H as (b & Hb & H). destruct b; [|discriminate].
  apply bind_ok in H as (l & Hl & H). apply bind_ok in H as (ls & Hls & H). apply bind_ok in H as (h1 & H1 & H).
  apply bind_ok in H as (q & Hq & H). apply get_ok in Hq. destruct (nd_sol q) as [F|] eqn:E; [|discriminate].
  injection H as <- <-. split; [|exists q; auto]. eapply foldM_step; [|exact I|exact H1]. intros h0 i h2 I0 H2. exact (climb_step (S i) h0 i h2 I0 H2).
Qed.

(** the root of a search for [e] in [v] *)
Definition Root (e : expr) (v : string) (h : heap) : Prop :=
  exists q, nth_error h 0 = Some q /\ nd_e q = e /\ nd_v q = v /\ nd_p q = None.
Lemma Root_ext e v h h' : Root e v h -> ext h h' -> Root e v h'.
Proof.
  intros (q & Hq & A1 & A2 & A3) E. apply E in Hq as (q' & Hq & C). unfold core in C. injection C as C1 C2 C3 C4.
  exists q'. splits; auto; congruence.
Qed.
Lemma mkroot_inv e v : wdB B e -> openv B v -> Inv [mkroot e v].
Proof.
  intros W O. exists (fun _ r => ev r e). intros i q H. destruct i as [|[|i]]; try discriminate. injection H as <-.
  constructor; cbn; auto; try discriminate. intros k [].
Qed.
Lemma mkroot_root e v : Root e v [mkroot e v].
Proof. exists (mkroot e v). auto. Qed.
Lemma root_sol e v h s : Inv h -> Root e v h -> (exists q, nth_error h 0 = Some q /\ nd_sol q = Some s) ->
  AntiOn B v (fun r => ev r e) s.
Proof.
  intros [T I] (q & Hq & A1 & A2 & A3) (q' & Hq' & S). rewrite Hq in Hq'. injection Hq' as <-.
  destruct (I _ _ Hq) as [_ _ NT NS NR _ _]. apply NS in S. rewrite A2 in S. eapply AntiOn_fext; [exact S|].
  intros r Hr. rewrite NT; auto. now rewrite A1.
Qed.

Lemma iwh_sound x e v s x' : iwh fk rng nm n x e v = Ok (Some s, x') -> wdB B e -> openv B v ->
  AntiOn B v (fun r => ev r e) s.
Proof.
  intros H W O. unfold iwh in H. apply bind_ok in H as ([h x1] & H1 & H).
  apply (safely_step _ ([mkroot e v], x)) in H1; [|now apply mkroot_inv]. destruct H1 as [I1 E1]. cbn [fst] in *.
  apply bind_ok in H as (l & Hl & H). apply bind_ok in H as (h1 & H2 & H).
  eapply foldM_step in H2; [|intros h3 a h' I H3|exact I1].
  2:{ clear H Hl E1 I1. rename H3 into H. apply bind_ok in H as (h4 & H1 & H). apply bind_ok in H as (q & Hq & H). injection H as <-.
      apply (step_trans _ h4); [eapply check_solvable_step; eauto|]. intros I1.
      destruct (nd_ty q); try (now apply set_ty_step). now apply step_refl. }
  destruct H2 as [I2 E2]. apply bind_ok in H as (b & Hb & H). destruct b; [discriminate|].
  apply bind_ok in H as ([h2 s2] & H3 & H). injection H as <- <-.
  apply go_backwards_step in H3 as [[I3 E3] S]; auto. eapply root_sol; eauto.
  eapply Root_ext; [apply mkroot_root|]. eapply ext_trans; [exact E1|]. eapply ext_trans; eauto.
Qed.

(** *** by parts *)
(** u and w are defined, du is u', and e = u w' *)
Definition BP (v : string) (e u du w : expr) : Prop :=
  wdB B u /\ wdB B du /\ wdB B w /\
  forall rho, inB B rho -> is_derive (fun t => ev (upd rho v t) u) (rho v) (ev rho du) /\
    exists dw, is_derive (fun t => ev (upd rho v t) w) (rho v) dw /\ ev rho e = (ev rho u * dw)%R.

Lemma diff_parts v a du : openv B v -> diffE fk n v a = Ok du -> wdB B a ->
  wdB B du /\ forall rho, inB B rho -> is_derive (fun t => ev (upd rho v t) a) (rho v) (ev rho du).
Proof.
  intros O D W. split; intros rho Hr; now apply (diff_box B v O fk n a du HS D W).
Qed.
Lemma bp_try_sound h x i v e a b u du w x' : bp_try fk rng nm n h x i v e a b = Ok (Some (u, du, w), x') ->
  openv B v -> wdB B a -> wdB B b -> (forall r, inB B r -> ev r e = (ev r a * ev r b)%R) -> BP v e u du w.
Proof.
  intros H O Wa Wb E. unfold bp_try in H. apply bind_ok in H as (p & Hp & H). destruct p; [discriminate|].
  apply bind_ok in H as (du0 & Hd & H). apply bind_ok in H as ([o x1] & Hi & H). destruct o as [w0|]; [|discriminate].
  apply bind_ok in H as (i2 & H2 & H). apply bind_ok in H as (f & Hf & H). destruct (isq f 1); [discriminate|].
  apply bind_ok in H as (b0 & Hb & H). destruct b0; [discriminate|]. injection H as <- <- <- <-.
  apply iwh_sound in Hi; auto. destruct (diff_parts _ _ _ O Hd Wa) as [Wd D]. unfold BP. splits; auto.
  - intros r Hr. now apply Hi.
  - intros rho Hr. split; auto. exists (ev rho b). split; [now apply Hi|]. auto.
Qed.
Lemma bp_check_sound h x i v e u du w x' : bp_check fk rng nm n h x i v e = Ok (Some (u, du, w), x') ->
  openv B v -> wdB B e -> BP v e u du w.
Proof.
  intros H O W.
  assert (L : forall du0, diffE fk n v e = Ok du0 -> BP v e e du0 (ESym v)).
  { intros d Hd. destruct (diff_parts _ _ _ O Hd W) as [Wd D]. unfold BP. splits; auto.
    - intros r Hr. exact I.
    - intros rho Hr. split; auto. exists 1%R. split; [apply var_derive|]. ring. }
  unfold bp_check in H. destruct e as [| | | | | | | |ts| |inner b|f inner|]; try discriminate.
  - destruct ts as [|a [|b [|]]]; try discriminate.
    assert (Wab : wdB B a /\ wdB B b).
    { split; intros r Hr; apply W in Hr; apply wd_prod in Hr as [Hr _]; inversion Hr as [|? ? A1 A2]; subst; auto.
      now inversion A2. }
    destruct Wab as [Wa Wb]. apply bind_ok in H as ([o x1] & H1 & H). destruct o as [[[u1 du1] w1]|].
    + injection H as <- <- <- <-. eapply bp_try_sound; eauto. intros r Hr. simpl. ring.
    + eapply bp_try_sound; eauto. intros r Hr. simpl. ring.
  - destruct (is_var v inner); [|discriminate]. apply bind_ok in H as (d & Hd & H). injection H as <- <- <- <-. now apply L.
  - destruct (is_inverse f && is_var v inner); [|discriminate]. apply bind_ok in H as (d & Hd & H).
    injection H as <- <- <- <-. now apply L.
Qed.

Section Parts.
Context (v : string) (O : openv B v) (e u du w c1 i2 : expr) (HB : BP v e u du w)
  (H1 : op_mul fk u w = Ok c1) (H2 : bp_i2 fk du w = Ok i2).

Lemma i2_ok : wdB B i2 /\ forall r, inB B r -> ev r i2 = (- (ev r du * ev r w))%R.
Proof.
  destruct HB as (A1 & A2 & A3 & _). unfold bp_i2 in H2. apply bind_ok in H2 as (m & Hm & H2').
  assert (G : forall r, inB B r -> wd r i2 /\ ev r i2 = (- (ev r du * ev r w))%R).
  { intros r Hr. destruct (g_mul _ _ (HS r Hr) _ _ _ Hm (A2 r Hr) (A3 r Hr)) as [C1 C2].
    destruct (g_mul _ _ (HS r Hr) _ _ _ H2' C1 Logic.I) as [C3 C4]. split; auto. rewrite C4, C2. cbn [ev].
    change (Q2R (-1)) with (Q2R (-1 # 1)). unfold Q2R. simpl. field. }
  split; intros r Hr; now apply G.
Qed.
(** (u w)' = e - (-u' w) *)
Lemma uw_anti : AntiOn B v (fun r => (ev r e - ev r i2)%R) c1.
Proof.
  destruct HB as (A1 & A2 & A3 & A4). destruct i2_ok as [_ E2].
  assert (G : forall r, inB B r -> wd r c1 /\ ev r c1 = (ev r u * ev r w)%R).
  { intros r Hr. apply (g_mul _ _ (HS r Hr) _ _ _ H1); auto. }
  intros rho Hr. split; [now apply G|]. apply (box_ext B v O rho (fun r => (ev r u * ev r w)%R)); auto.
  { intros r Hb. now apply G. }
  destruct (A4 rho Hr) as (D1 & dw & D2 & E). rewrite E, E2 by auto.
  eapply is_derive_eq; [apply (is_derive_mult (fun t => ev (upd rho v t) u) (fun t => ev (upd rho v t) w));
    [exact D1|exact D2|intros; apply Rmult_comm]|].
  unfold plus, mult; simpl. rewrite rho_upd. ring.
Qed.
End Parts.

Lemma AntiOn_divc v f c F F' : openv B v -> AntiOn B v f F -> contains v c = false -> wdB B c -> op_div fk F c = Ok F' ->
  AntiOn B v (fun r => (f r / ev r c)%R) F' /\ forall r, inB B r -> ev r c <> 0%R.
Proof.
  intros O HA Hc Wc H.
  assert (G : forall r, inB B r -> ev r c <> 0%R /\ wd r F' /\ ev r F' = (ev r F / ev r c)%R).
  { intros r Hr. apply (g_div _ _ (HS r Hr) _ _ _ H); [now apply HA|auto]. }
  split; [|intros r Hr; now apply G]. intros rho Hr. destruct (HA rho Hr) as [WF D]. split; [now apply G|].
  apply (box_ext B v O rho (fun r => (ev r F / ev r c)%R)); auto; [intros r Hb; now apply G|].
  apply is_derive_ext with (f := fun t => (ev (upd rho v t) F * / ev rho c)%R).
  { intros t. rewrite (ev_upd_notin rho v t c Hc). reflexivity. }
  eapply is_derive_eq; [apply (is_derive_mult (fun t => ev (upd rho v t) F) (fun t => / ev rho c)%R);
    [exact D|apply (is_derive_const (/ ev rho c)%R)|intros; apply Rmult_comm]|].
  unfold plus, mult; simpl. change (@Hierarchy.zero _) with 0%R. unfold Rdiv. ring.
Qed.

Lemma one_minus f d : op_sub fk (ERat 1) f = Ok d -> wdB B f -> wdB B d /\ forall r, inB B r -> ev r d = (1 - ev r f)%R.
Proof.
  intros H W.
  assert (G : forall r, inB B r -> wd r d /\ ev r d = (1 - ev r f)%R).
  { intros r Hr. destruct (g_sub _ _ (HS r Hr) _ _ _ H Logic.I (W r Hr)) as [A1 A2]. split; auto. rewrite A2. cbn [ev].
    change (Q2R 1) with (Q2R (1 # 1)). unfold Q2R. simpl. field. }
  split; intros r Hr; now apply G.
Qed.

Lemma bp_funky_step h i v e c1 i2 h' q : Inv h -> bp_funky fk h i v e c1 i2 = Ok h' ->
  nth_error h i = Some q -> nd_e q = e -> nd_v q = v -> wdB B i2 -> AntiOn B v (fun r => (ev r e - ev r i2)%R) c1 -> Step h h'.
Proof.
  intros [T I] H Hq Ee Ev W2 A. destruct (I _ _ Hq) as [Wq Oq _ _ _ _ _].
  unfold bp_funky in H. apply bind_ok in H as (q' & Hq' & H). apply get_ok in Hq'.
  rewrite Hq in Hq'. injection Hq' as <-. cbv zeta in H. apply sg0 in H as [G H]. apply andb_prop in G as [G1 G2].
  set (fu := {| nd_e := e |}) in *. set (h1 := append h i [fu]) in *. set (f := List.length h) in *.
  apply sg0 in H as [G3 H]. destruct (dropped h1 f _); [discriminate|]. injection H as <-.
  split; [|eapply ext_trans; apply ext_append].
  assert (I1 : InvT (upT T f (fun r => ev r e)) h1).
  { apply (append1 T h i q); auto; subst e v; cbn; auto; try discriminate. }
  assert (Hf : nth_error h1 f = Some fu).
  { unfold h1, append. rewrite nth_setn. destruct (Nat.eqb_spec i f); [apply nth_lt in Hq; unfold f in *; lia|].
    rewrite nth_error_app2 by auto. unfold f. now rewrite Nat.sub_diag. }
  eexists. apply (append_sum (upT T f (fun r => ev r e)) h1 f fu _ (fun k r => match k with O => (ev r e - ev r i2)%R | _ => ev r i2 end)); auto.
  - intros [|[|[|k]]] c Hc; cbn in Hc; try discriminate; injection Hc as <-; cbn; splits; auto; try discriminate; try congruence.
    + rewrite <- Ee. auto.
    + intros F HF. injection HF as <-. exact A.
  - intros r Hr. cbn. ring.
Qed.

(** rewriting the nodes without changing the tree *)
Lemma rebuild T T' h h' : InvT T h ->
  (forall j q', nth_error h' j = Some q' -> exists q, nth_error h j = Some q) ->
  (forall j q, nth_error h j = Some q -> exists q', nth_error h' j = Some q' /\ core q' = core q /\ nd_kids q' = nd_kids q /\
     (nd_only q' = None -> nd_only q = None /\ T' j = T j) /\ (nd_p q = None -> nd_only q' = None) /\
     (forall F, nd_sol q' = Some F -> AntiOn B (nd_v q) (T' j) F)) ->
  (forall j q p m m', nth_error h j = Some q -> nd_p q = Some p -> nth_error h p = Some m -> nth_error h' p = Some m' ->
     In j (nd_kids m) -> allowed m' j = true -> (allowed m j = true -> Edge T h m p q j) -> Edge T' h m p q j) ->
  InvT T' h'.
Proof.
  intros I Hb Hf He j q' Hj. destruct (Hb _ _ Hj) as [q Hq]. destruct (Hf _ _ Hq) as (x & Hx & C & K & A1 & A2 & A3).
  rewrite Hj in Hx. injection Hx as <-. destruct (I _ _ Hq) as [a b c d e k p]. pose proof C as C'.
  unfold core in C'. injection C' as Ce Cv Ct Cp.
  constructor; rewrite ?Ce, ?Cv, ?Cp, ?K; auto.
  - intros N r Hr. destruct (A1 N) as [N1 ->]. auto.
  - intros k0 Hk. apply k in Hk as (L & q1 & Hk & P). split; auto. apply Hf in Hk as (q2 & Hk & C2 & _).
    unfold core in C2. injection C2 as _ _ _ C2. exists q2. split; auto. congruence.
  - intros p0 Hp. pose proof Hp as Hp'. apply p in Hp as (m & Hm & L & Hin & E). destruct (Hf _ _ Hm) as (m' & Hm' & C2 & K2 & _).
    unfold core in C2. injection C2 as _ Cv2 _ _.
    exists m'. rewrite K2. splits; auto. intros Ha.
    pose proof (He _ _ _ _ _ Hq Hp' Hm Hm' Hin Ha E) as Q. unfold Edge in Q |- *. rewrite Ct, Cv, Cv2, K2.
    destruct (nd_t q) as [[]|]; auto.
    destruct Q as [Q1 Q2]. split; auto. intros j0 Hj0. apply Q1 in Hj0 as (q1 & Hj0 & T1 & V1).
    apply Hf in Hj0 as (q2 & Hj0 & C3 & _). unfold core in C3. injection C3 as _ Cv3 Ct3 _. exists q2. splits; auto; congruence.
Qed.

Lemma first_factor_ok h m i ff k1 : first_factor h m i = Ok (ff, k1) ->
  exists k0 K r, nd_kids m = k0 :: K :: r /\
  match k1 with
  | None => K = i /\ ff = ERat 1
  | Some k => k = K /\ exists q q1 t, nth_error h i = Some q /\ nd_t q = Some (TPull ff) /\ nth_error h K = Some q1 /\
              nd_kids q1 = i :: t
  end.
Proof.
  unfold first_factor. destruct (nd_kids m) as [|k0 [|K r]]; try discriminate. intros H. exists k0, K, r. split; auto.
  destruct (Nat.eqb_spec K i); [injection H as <- <-; auto|].
  apply bind_ok in H as (q & Hq & H). apply get_ok in Hq. destruct (nd_t q) as [[c| | |]|] eqn:Et; try discriminate.
  apply bind_ok in H as (q1 & Hq1 & H). apply get_ok in Hq1. destruct (nd_kids q1) as [|k t] eqn:Ek; try discriminate.
  destruct (Nat.eqb_spec k i); [|discriminate]. injection H as <- <-. subst. split; auto. exists q, q1, t. auto.
Qed.
Lemma reg_only q : regular q = true -> nd_only q = None.
Proof. unfold regular. destruct (nd_only q); congruence. Qed.
Lemma sealed_only q : sealed q = true -> nd_only q = Some [].
Proof. unfold sealed. destruct (nd_only q) as [[|]|]; congruence. Qed.
Lemma reg_allowed q j : regular q = true -> allowed q j = true.
Proof. intros H. unfold allowed. now rewrite (reg_only _ H). Qed.

Lemma bp_cyclic2_step h i mi v e c1 i2 h' q : Inv h -> bp_cyclic2 fk h i mi v e c1 i2 = Ok h' ->
  nth_error h i = Some q -> nd_e q = e -> nd_v q = v -> wdB B i2 -> AntiOn B v (fun r => (ev r e - ev r i2)%R) c1 -> Step h h'.
Proof.
  intros [T I] H Hq Ee Ev W2 A. unfold bp_cyclic2 in H.
  apply bind_ok in H as (m & Hm & H). apply get_ok in Hm. apply bind_ok in H as ([ff k1] & Hff & H).
  apply first_factor_ok in Hff as (k0 & K & rest & Km & Hff).
  apply bind_ok in H as (sf & Hsf & H). apply bind_ok in H as (f & Hf & H). rewrite Km in H.
  apply bind_ok in H as (q0 & Hq0 & H). apply get_ok in Hq0. destruct (nd_sol q0) as [s0|] eqn:Es0; [|discriminate].
  apply bind_ok in H as (d & Hd & H). apply bind_ok in H as (s0' & Hs0 & H). apply bind_ok in H as (s & Hs & H).
  apply bind_ok in H as (q' & Hq' & H). apply get_ok in Hq'. rewrite Hq in Hq'. injection Hq' as <-.
  apply bind_ok in H as (q1 & Hq1 & H). apply get_ok in Hq1.
  cbv zeta in H. apply sg0 in H as [G H]. rewrite !andb_true_iff in G.
  destruct G as [[[[[[[[[[Gsf Gd] Gq] Gnq] GN] Gq1] Gn1] Gm] Gs0] Ga0] Glen].
  apply negb_true_iff in Gsf, Gd. apply Nat.eqb_eq in Glen. destruct rest; [|discriminate]. clear Glen.
  set (ns := List.length h) in *.
  apply bind_ok in H as (b & _ & H). destruct b; [|discriminate]. injection H as <-.
  (* the tree around *)
  destruct (I _ _ Hm) as [Wm Om NTm _ _ KKm _]. specialize (NTm (reg_only _ Gm)).
  destruct (I _ _ Hq) as [Wq Oq NTq _ _ KKq Pq]. specialize (NTq (reg_only _ Gq)).
  destruct (I _ _ Hq0) as [_ _ _ Sq0 _ _ Pq0].
  assert (Pk0 : mi < k0 /\ nd_p q0 = Some mi).
  { destruct (KKm k0) as (L & x & Hx & Px); [rewrite Km; simpl; auto|]. rewrite Hq0 in Hx. injection Hx as <-. auto. }
  assert (E0 : Edge T h m mi q0 k0).
  { destruct (Pq0 _ (proj2 Pk0)) as (m' & Hm' & _ & _ & E). rewrite Hm in Hm'. injection Hm' as <-. apply E. now apply reg_allowed. }
  unfold Edge in E0. unfold is_add in Ga0. destruct (nd_t q0) as [[| | |]|] eqn:Et0; try discriminate.
  destruct E0 as [E0 Esum]. rewrite Km in E0, Esum.
  destruct (E0 K) as (qK & HqK & TK & VK); [simpl; auto|].
  destruct (E0 k0) as (x & Hx & _ & Vk0); [simpl; auto|]. rewrite Hq0 in Hx. injection Hx as <-.
  destruct (KKm K) as (LK & x & Hx & PK); [rewrite Km; simpl; auto|]. rewrite HqK in Hx. injection Hx as <-.
  assert (FF : K = match k1 with Some k => k | None => i end /\ nd_v m = v /\ wdB B ff /\
            (forall r, inB B r -> T K r = (ev r ff * ev r e)%R) /\
            match k1 with
            | None => ff = ERat 1
            | Some _ => K <> i /\ nd_p q = Some K /\ nd_t q = Some (TPull ff) /\ contains v ff = false
            end).
  { destruct k1 as [k|].
    - destruct Hff as (-> & x & y & t & Hx & Tx & Hy & Ky). rewrite Hq in Hx. injection Hx as <-.
      rewrite HqK in Hy. injection Hy as <-. rewrite HqK in Hq1. injection Hq1 as <-.
      destruct (I _ _ HqK) as [_ _ _ _ _ KKK _]. destruct (KKK i) as (Li & x & Hx & Pi); [rewrite Ky; simpl; auto|].
      rewrite Hq in Hx. injection Hx as <-. destruct (Pq _ Pi) as (y & Hy & _ & _ & Ed). rewrite HqK in Hy. injection Hy as <-.
      specialize (Ed (reg_allowed _ _ Gq1)). unfold Edge in Ed. rewrite Tx in Ed. destruct Ed as (D1 & D2 & D3 & D4).
      assert (Em : nd_v m = v) by congruence. splits; auto; try lia; try congruence.
      intros r Hr. rewrite D4, NTq, Ee; auto.
    - destruct Hff as [-> ->]. rewrite Hq in HqK. injection HqK as <-. splits; auto; try congruence.
      + intros r Hr. exact Logic.I.
      + intros r Hr. rewrite NTq, Ee; auto. cbn [ev]. change (Q2R 1) with (Q2R (1 # 1)). unfold Q2R. simpl. field. }
  destruct FF as (EK & Evm & Wff & TKr & Hk1). rewrite <- EK in Hq1. rewrite HqK in Hq1. injection Hq1 as <-.
  assert (Gk : nd_only q0 = Some []) by (now apply sealed_only).
  assert (Nk0i : k0 <> i). { intros ->. rewrite Hq in Hq0. injection Hq0 as <-. rewrite (reg_only _ Gq) in Gk. discriminate. }
  assert (Nk0K : k0 <> K). { intros ->. rewrite HqK in Hq0. injection Hq0 as <-. rewrite (reg_only _ Gq1) in Gk. discriminate. }
  assert (Lk0 := nth_lt _ _ _ Hq0). assert (LKn := nth_lt _ _ _ HqK). assert (Lin := nth_lt _ _ _ Hq). assert (Lmn := nth_lt _ _ _ Hm).
  fold ns in Lk0, LKn, Lin, Lmn. destruct Pk0 as [Lmk0 Pk0].
  assert (Wsf : wdB B sf). { intros r Hr. apply (g_div _ _ (HS r Hr) _ _ _ Hsf); auto. }
  assert (Vsf : forall r, inB B r -> ev r i2 = (ev r sf * ev r (nd_e m))%R).
  { intros r Hr. destruct (g_div _ _ (HS r Hr) _ _ _ Hsf) as (D1 & _ & D2); auto. rewrite D2. field. auto. }
  assert (Wf : wdB B f). { intros r Hr. apply (g_mul _ _ (HS r Hr) _ _ _ Hf); auto. }
  assert (Vf : forall r, inB B r -> ev r f = (ev r ff * ev r sf)%R). { intros r Hr. apply (g_mul _ _ (HS r Hr) _ _ _ Hf); auto. }
  destruct (one_minus _ _ Hd Wf) as [Wd Vd].
  assert (Ov : openv B v) by (rewrite <- Evm; auto).
  assert (A0 : AntiOn B v (T k0) s0). { rewrite <- Evm, <- Vk0. auto. }
  destruct (AntiOn_divc v _ d s0 s0' Ov A0 Gd Wd Hs0) as [A0' Dnz].
  destruct (AntiOn_divc v _ d c1 s Ov A Gd Wd Hs) as [As _].
  set (N := fun r => ((ev r e - ev r i2) / ev r d)%R) in *.
  set (T' := fun j => if Nat.eqb j k0 then (fun r => (T k0 r / ev r d)%R) else if Nat.eqb j ns then N else if Nat.eqb j i then N
                      else if Nat.eqb j K then (fun r => (ev r ff * N r)%R) else T j).
  assert (Tk0' : T' k0 = (fun r => (T k0 r / ev r d)%R)) by (unfold T'; now rewrite Nat.eqb_refl).
  assert (Tns' : T' ns = N) by (unfold T'; destruct (Nat.eqb_spec ns k0); [lia|]; now rewrite Nat.eqb_refl).
  assert (Ti' : T' i = N).
  { unfold T'. destruct (Nat.eqb_spec i k0); [congruence|]. destruct (Nat.eqb_spec i ns); auto. now rewrite Nat.eqb_refl. }
  assert (TK' : forall r, T' K r = (ev r ff * N r)%R).
  { intros r. unfold T'. destruct (Nat.eqb_spec K k0); [congruence|]. destruct (Nat.eqb_spec K ns); [lia|].
    rewrite Nat.eqb_refl. destruct (Nat.eqb_spec K i) as [EKi|]; auto. destruct k1 as [k|]; [tauto|]. rewrite Hk1. cbn [ev].
    change (Q2R 1) with (Q2R (1 # 1)). unfold Q2R. simpl. field. }
  assert (TO' : forall j, j <> k0 -> j <> ns -> j <> i -> j <> K -> T' j = T j).
  { intros j B1 B2 B3 B4. unfold T'. destruct (Nat.eqb_spec j k0); [tauto|]. destruct (Nat.eqb_spec j ns); [tauto|].
    destruct (Nat.eqb_spec j i); [tauto|]. destruct (Nat.eqb_spec j K); tauto. }
  set (ns0 := {| nd_e := e; nd_v := v; nd_t := Some (TId IByParts); nd_p := Some i; nd_ty := SOLUTION; nd_sol := None;
                 nd_fill := true; nd_kids := []; nd_only := Some [] |}).
  set (ha := append h i [ns0]). set (Ta := upT T ns (fun r => ev r e)).
  assert (Ia : InvT Ta ha).
  { apply (append1 T h i q); auto; cbn; subst e v; auto; try discriminate. }
  assert (Ha : forall j x, nth_error h j = Some x -> nth_error ha j = Some (if Nat.eqb i j then add_kids [ns] x else x)).
  { intros j x Hx. unfold ha, append. rewrite nth_setn, (nth_app_l _ _ _ _ Hx). destruct (Nat.eqb i j); reflexivity. }
  assert (Han : nth_error ha ns = Some ns0).
  { unfold ha, append. rewrite nth_setn. destruct (Nat.eqb_spec i ns); [lia|]. rewrite nth_error_app2 by auto. fold ns.
    now rewrite Nat.sub_diag. }
  assert (Hab : forall j x, nth_error ha j = Some x -> j <= ns).
  { intros j x Hx. apply nth_lt in Hx. unfold ha, append in Hx. rewrite setn_length, app_length in Hx. cbn in Hx. fold ns in Hx. lia. }
  assert (Haj : forall j x, nth_error ha j = Some x -> j <> ns -> exists y, nth_error h j = Some y).
  { intros j x Hx Hj. apply Hab in Hx. destruct (nth_error h j) as [y|] eqn:E; eauto. apply nth_error_None in E. fold ns in E. lia. }
  match goal with |- Step h ?X => set (h4 := X) end.
  set (g := fun j x => let x1 := if Nat.eqb k0 j then set_sol s0' x else x in
                       if Nat.eqb i j then set_only [ns] (set_ty OR (add_kids [ns] x1))
                       else match k1 with Some k => if Nat.eqb k j then set_only [i] x1 else x1 | None => x1 end).
  assert (H4 : forall j x, nth_error h j = Some x -> nth_error h4 j = Some (g j x)).
  { intros j x Hx. unfold h4, g, append.
    assert (Y : nth_error (setn h k0 (set_sol s0') ++ [mkfill e v (TId IByParts) i s (Some [])]) j =
                Some (if Nat.eqb k0 j then set_sol s0' x else x)).
    { apply nth_app_l. rewrite nth_setn, Hx. now destruct (Nat.eqb k0 j). }
    destruct k1 as [k|]; rewrite ?nth_setn, Y, setn_length; fold ns.
    - destruct (Nat.eqb_spec i j) as [->|]; [|destruct (Nat.eqb k j); reflexivity].
      destruct (Nat.eqb_spec k j) as [->|]; [|reflexivity]. exfalso. destruct Hk1 as [Z _]. congruence.
    - destruct (Nat.eqb i j); reflexivity. }
  assert (H4n : nth_error h4 ns = Some (mkfill e v (TId IByParts) i s (Some []))).
  { assert (Y : nth_error (setn h k0 (set_sol s0') ++ [mkfill e v (TId IByParts) i s (Some [])]) ns =
                Some (mkfill e v (TId IByParts) i s (Some []))).
    { rewrite nth_error_app2; rewrite setn_length; fold ns; auto. now rewrite Nat.sub_diag. }
    unfold h4, append. destruct k1 as [k|]; rewrite ?nth_setn, Y.
    - destruct (Nat.eqb_spec i ns); [lia|]. destruct (Nat.eqb_spec k ns); [|reflexivity]. subst. lia.
    - destruct (Nat.eqb_spec i ns); [lia|]. reflexivity. }
  assert (H4b : forall j x, nth_error h4 j = Some x -> j <= ns).
  { intros j x Hx. apply nth_lt in Hx. unfold h4, append in Hx.
    destruct k1; rewrite ?setn_length, app_length, setn_length in Hx; cbn in Hx; fold ns in Hx; lia. }
  split.
  2:{ intros j x Hx. exists (g j x). split; [now apply H4|]. unfold g. destruct (Nat.eqb k0 j), (Nat.eqb i j); try reflexivity;
      (destruct k1 as [k|]; [destruct (Nat.eqb k j); reflexivity|reflexivity]). }
  exists T'. apply (rebuild Ta T' ha h4 Ia).
  - intros j x Hx. destruct (Nat.eq_dec j ns) as [->|Nj]; [eauto|].
    destruct (nth_error h j) as [y|] eqn:E; [eauto|]. apply nth_error_None in E. fold ns in E. apply H4b in Hx. lia.
  - intros j x Hx. destruct (Nat.eq_dec j ns) as [->|Nj].
    + rewrite Han in Hx. injection Hx as <-. eexists; split; [exact H4n|]. cbn. splits; auto; try discriminate.
      intros F HF. injection HF as <-. rewrite Tns'. exact As.
    + destruct (Haj _ _ Hx Nj) as [y Hy]. rewrite (Ha _ _ Hy) in Hx. injection Hx as <-. eexists; split; [exact (H4 _ _ Hy)|].
      destruct (I _ _ Hy) as [_ _ _ Sy Ry _ _]. unfold g. destruct (Nat.eqb_spec i j) as [->|Nij].
      { rewrite Hq in Hy. injection Hy as <-. destruct (Nat.eqb_spec k0 j); [congruence|]. cbn. splits; auto; try discriminate.
        - intros P. destruct k1 as [k|].
          + destruct Hk1 as (_ & P' & _). congruence.
          + subst K. rewrite Hq in HqK. injection HqK as <-. congruence.
        - unfold no_sol in Gnq. destruct (nd_sol q); discriminate. }
      assert (Tj : j <> k0 -> j <> K -> T' j = Ta j).
      { intros. rewrite TO'; auto. unfold Ta. rewrite upT_ne; auto. }
      assert (OK : j = k0 \/ j = K /\ k1 = Some K \/ (j <> k0 /\ j <> K)).
      { destruct (Nat.eq_dec j k0); auto. destruct (Nat.eq_dec j K); auto. right. left. split; auto. destruct k1; congruence. }
      destruct OK as [->|[[-> ->]|[N1 N2]]].
      * rewrite Nat.eqb_refl. rewrite Hq0 in Hy. injection Hy as <-.
        assert (Z : match k1 with Some k => if Nat.eqb k k0 then set_only [i] (set_sol s0' q0) else set_sol s0' q0 | None => set_sol s0' q0 end = set_sol s0' q0).
        { destruct k1; auto. destruct (Nat.eqb_spec n0 k0); auto. congruence. }
        rewrite Z. cbn. splits; auto; try congruence. intros F HF. injection HF as <-. rewrite Tk0', Vk0, Evm. exact A0'.
      * rewrite Nat.eqb_refl. rewrite HqK in Hy. injection Hy as <-. destruct (Nat.eqb_spec k0 K); [congruence|]. cbn.
        splits; auto; try discriminate; try congruence. intros F HF. unfold no_sol in Gn1. rewrite HF in Gn1. discriminate.
      * assert (Z : match k1 with Some k => if Nat.eqb k j then set_only [i] y else y | None => y end = y).
        { destruct k1; auto. destruct (Nat.eqb_spec n0 j); auto. congruence. }
        destruct (Nat.eqb_spec k0 j); [congruence|]. rewrite Z. splits; auto. intros F HF. rewrite TO'; auto.
  - (* edges *)
    assert (NC : forall j x p m1, nth_error ha j = Some x -> nd_p x = Some p -> p <> i -> p <> mi -> p <> k0 -> (k1 = Some K -> p <> K) ->
               nth_error ha p = Some m1 -> T' p = Ta p /\ T' j = Ta j).
    { intros j x p m1 Hx Px P1 P2 P3 P4 Hp.
      assert (Np : p <> ns). { intros ->. rewrite Han in Hp. injection Hp as <-.
        destruct (ni_par _ _ _ _ (Ia _ _ Hx) _ Px) as (y & Hy & _ & Hin & _). rewrite Han in Hy. injection Hy as <-. destruct Hin. }
      assert (PK' : p <> K). { destruct k1 as [k|]; [apply P4; congruence|]. congruence. }
      assert (Nj : j <> ns). { intros ->. rewrite Han in Hx. injection Hx as <-. cbn in Px. congruence. }
      destruct (Haj _ _ Hx Nj) as [y Hy]. rewrite (Ha _ _ Hy) in Hx. injection Hx as <-.
      assert (Py : nd_p y = Some p) by (destruct (Nat.eqb i j); auto).
      split.
      - rewrite TO'; auto. unfold Ta. now rewrite upT_ne.
      - rewrite TO'; auto.
        + unfold Ta. now rewrite upT_ne.
        + intros ->. rewrite Hq0 in Hy. injection Hy as <-. congruence.
        + intros ->. rewrite Hq in Hy. injection Hy as <-. destruct k1 as [k|].
          * destruct Hk1 as (_ & P' & _). congruence.
          * subst K. rewrite Hq in HqK. injection HqK as <-. congruence.
        + intros ->. rewrite HqK in Hy. injection Hy as <-. congruence. }
    intros j x p m1 m' Hx Px Hp Hp' Hin Hal HE.
    destruct (Nat.eq_dec p i) as [->|Pi].
    { rewrite (H4 _ _ Hq) in Hp'. injection Hp' as <-. unfold g in Hal. rewrite Nat.eqb_refl in Hal.
      unfold allowed in Hal. cbn in Hal. rewrite orb_false_r in Hal. apply Nat.eqb_eq in Hal. subst j.
      rewrite Han in Hx. injection Hx as <-. rewrite (Ha _ _ Hq), Nat.eqb_refl in Hp. injection Hp as <-.
      unfold Edge. cbn. split; [congruence|]. intros r Hr. now rewrite Ti', Tns'. }
    destruct (Nat.eq_dec p k0) as [->|Pk].
    { rewrite (H4 _ _ Hq0) in Hp'. injection Hp' as <-. exfalso. unfold g in Hal. rewrite Nat.eqb_refl in Hal.
      destruct (Nat.eqb_spec i k0); [congruence|].
      assert (Z : match k1 with Some k => if Nat.eqb k k0 then set_only [i] (set_sol s0' q0) else set_sol s0' q0 | None => set_sol s0' q0 end = set_sol s0' q0).
      { destruct k1; auto. destruct (Nat.eqb_spec n1 k0); auto. congruence. }
      rewrite Z in Hal. unfold allowed in Hal. cbn in Hal. rewrite Gk in Hal. discriminate. }
    destruct (Nat.eq_dec p mi) as [->|Pm].
    { rewrite (Ha _ _ Hm) in Hp. destruct (Nat.eqb_spec i mi); [congruence|]. injection Hp as <-.
      assert (Xt : nd_t x = Some TAdd).
      { rewrite Km in Hin. assert (Nj : j <> ns). { intros ->. destruct Hin as [Q|[Q|[]]]; lia. }
        destruct (Haj _ _ Hx Nj) as [y Hy]. rewrite (Ha _ _ Hy) in Hx. injection Hx as <-.
        destruct (E0 _ Hin) as (z & Hz & Tz & _). rewrite Hy in Hz. injection Hz as <-. destruct (Nat.eqb i j); auto. }
      unfold Edge. rewrite Xt, Km. split.
      - intros j0 Hj0. destruct (E0 _ Hj0) as (z & Hz & Tz & Vz). rewrite (Ha _ _ Hz). eexists; split; [reflexivity|].
        destruct (Nat.eqb i j0); auto.
      - intros r Hr. cbn [map Rsum fold_right]. rewrite Tk0', TK'.
        assert (Nmi : T' mi = T mi). { apply TO'; lia. }
        rewrite Nmi, NTm by auto.
        assert (S1 : ev r (nd_e m) = (T k0 r + ev r ff * ev r e)%R).
        { rewrite <- NTm, Esum by auto. cbn. rewrite TKr by auto. ring. }
        unfold N. specialize (Dnz r Hr). rewrite Vd, Vf in * by auto.
        replace (T k0 r) with (ev r (nd_e m) - ev r ff * ev r e)%R by (rewrite S1; ring).
        rewrite Vsf by auto. field. exact Dnz. }
    destruct (Nat.eq_dec p K) as [->|PKn].
    { destruct k1 as [k|]; [|congruence]. assert (k = K) by auto. subst k. destruct Hk1 as (NKi & Pqi & Tqi & Cff).
      rewrite (H4 _ _ HqK) in Hp'. injection Hp' as <-. unfold g in Hal. destruct (Nat.eqb_spec i K); [congruence|].
      rewrite Nat.eqb_refl in Hal. destruct (Nat.eqb_spec k0 K); [congruence|].
      unfold allowed in Hal. cbn in Hal. rewrite orb_false_r in Hal. apply Nat.eqb_eq in Hal. subst j.
      rewrite (Ha _ _ Hq), Nat.eqb_refl in Hx. injection Hx as <-.
      rewrite (Ha _ _ HqK) in Hp. destruct (Nat.eqb_spec i K); [congruence|]. injection Hp as <-.
      unfold Edge. cbn. rewrite Tqi. splits; auto; try congruence;
      intros r Hr; now rewrite TK', Ti'. }
    destruct (NC j x p m1) as [Tp Tj]; auto.
    assert (Am : allowed m1 j = true).
    { destruct (Nat.eq_dec p ns) as [->|Np].
      { rewrite Han in Hp. injection Hp as <-. destruct Hin. }
      destruct (Haj _ _ Hp Np) as [y Hy]. rewrite (Ha _ _ Hy) in Hp. destruct (Nat.eqb_spec i p); [congruence|]. injection Hp as <-.
      rewrite (H4 _ _ Hy) in Hp'. injection Hp' as <-. unfold g in Hal. destruct (Nat.eqb_spec i p); [congruence|].
      destruct (Nat.eqb_spec k0 p); [congruence|]. destruct k1; auto. destruct (Nat.eqb_spec n3 p); auto. congruence. }
    specialize (HE Am). unfold Edge in HE |- *. rewrite Tp, Tj. destruct (nd_t x) as [[]|]; auto.
    destruct HE as [HE1 HE2]. split; auto. intros r Hr. rewrite HE2 by auto. f_equal. apply map_ext_in. intros j0 Hj0.
    destruct (ni_kids _ _ _ _ (Ia _ _ Hp) _ Hj0) as (_ & z & Hz & Pz). destruct (NC j0 z p m1) as [_ ->]; auto.
Qed.

Lemma bp_forward_step h i v e u du w h' q : Inv h -> bp_forward fk h i v e (u, du, w) = Ok h' ->
  nth_error h i = Some q -> nd_e q = e -> nd_v q = v -> BP v e u du w -> Step h h'.
Proof.
  intros I0 H Hq Ee Ev HB. destruct (inv_node _ _ _ I0 Hq) as [W O]. rewrite Ee in W. rewrite Ev in O.
  unfold bp_forward in H. apply bind_ok in H as (c1 & H1 & H). apply bind_ok in H as (i2 & H2 & H).
  destruct (i2_ok v e u du w i2 HB H2) as [W2 V2].
  pose proof (uw_anti v O e u du w c1 i2 HB H1 H2) as A.
  apply bind_ok in H as (f0 & Hf0 & H). destruct (contains v f0) eqn:C; cbn [negb] in H.
  - assert (Fu : forall h', bp_funky fk h i v e c1 i2 = Ok h' -> Step h h') by (intros; eapply bp_funky_step; eauto).
    destruct (last_bp h i) as [mi|]; auto. apply bind_ok in H as (m & Hm & H). apply bind_ok in H as (sf & Hsf & H).
    destruct (contains v sf); auto. eapply bp_cyclic2_step; eauto.
  - apply bind_ok in H as (f & Hf & H). apply bind_ok in H as (d & Hd & H). apply bind_ok in H as (s & Hs & H).
    apply bind_ok in H as (q' & Hq' & H). apply get_ok in Hq'. rewrite Hq in Hq'. injection Hq' as <-.
    apply sg0 in H as [G H]. rewrite !andb_true_iff in G. destruct G as [[[Gf Gd] Gq] GN]. apply negb_true_iff in Gf, Gd.
    injection H as <-.
    assert (Wf : wdB B f). { intros r Hr. apply (g_div _ _ (HS r Hr) _ _ _ Hf); auto. }
    assert (Vf : forall r, inB B r -> ev r i2 = (ev r f * ev r e)%R).
    { intros r Hr. destruct (g_div _ _ (HS r Hr) _ _ _ Hf) as (D1 & _ & D2); auto. rewrite D2. field. auto. }
    destruct (one_minus _ _ Hd Wf) as [Wd Vd]. destruct (AntiOn_divc v _ d c1 s O A Gd Wd Hs) as [As Dnz].
    destruct I0 as [T I].
    apply (step_trans _ (append h i [mkfill e v (TId IByParts) i s None])).
    + split; [|apply ext_append]. exists (upT T (List.length h) (fun r => ev r e)).
      apply (append1 T h i q); auto; cbn; subst e v; auto.
      intros F HF. injection HF as <-. eapply AntiOn_fext; [exact As|]. intros r Hr. cbv beta.
      specialize (Dnz r Hr). rewrite Vd in * by auto. rewrite Vf by auto. field. auto.
    + intros I1. now apply set_ty_step.
Qed.

(** the node that is worked on *)
Definition At (h : heap) (i : nat) (e : expr) (v : string) : Prop :=
  exists q, nth_error h i = Some q /\ nd_e q = e /\ nd_v q = v.
Lemma At_ext h h' i e v : At h i e v -> ext h h' -> At h' i e v.
Proof.
  intros (q & Hq & A1 & A2) E. apply E in Hq as (q' & Hq & C). unfold core in C. injection C as C1 C2 C3 C4.
  exists q'. splits; auto; congruence.
Qed.
Lemma At_node h i e v : Inv h -> At h i e v -> wdB B e /\ openv B v.
Proof. intros I (q & Hq & <- & <-). now apply (inv_node h i). Qed.

Lemma add_id_at k h i e v o h' : Inv h -> At h i e v -> add_id fk k h i v o = Ok h' ->
  (forall e', o = Some e' -> wdB B e -> forall r, inB B r -> good r e e') -> Step h h'.
Proof.
  intros I A H HC. destruct (At_node _ _ _ _ I A) as [W O]. destruct A as (q & Hq & E1 & E2).
  eapply add_id_step; eauto. intros q' Hq'. rewrite Hq in Hq'. injection Hq' as <-. split; auto. rewrite E1. auto.
Qed.
Lemma h_usub_step k s i o s' e v : Inv (fst s) -> At (fst s) i e v -> h_usub fk nm k s i o = Ok s' ->
  (forall u g, o = Some (u, g) -> wdB B e -> openv B v ->
     wdB B g /\ USub B v (nm (snd s)) u (fun r => ev r e) (fun r => ev r g)) -> Step (fst s) (fst s').
Proof.
  destruct s as [h x]. cbn [fst snd]. intros I A H HC. destruct (At_node _ _ _ _ I A) as [W O]. unfold h_usub in H.
  destruct o as [[u g]|]; [|injection H as <-; now apply step_refl].
  apply bind_ok in H as (h1 & H1 & H). injection H as <-. cbn [fst]. eapply add1_step; eauto.
  destruct A as (q & Hq & E1 & E2). intros q' Hq'. rewrite Hq in Hq'. injection Hq' as <-.
  destruct (HC u g eq_refl W O) as [A1 A2]. unfold child_ok. rewrite E1, E2. splits; auto. apply A2.
Qed.
Lemma h_byparts_step s i e v s' : Inv (fst s) -> At (fst s) i e v -> h_byparts fk rng nm n s i v e = Ok s' -> Step (fst s) (fst s').
Proof.
  destruct s as [h x]. cbn [fst]. intros I A H. destruct (At_node _ _ _ _ I A) as [W O]. unfold h_byparts in H.
  apply bind_ok in H as ([o x1] & H1 & H). destruct o as [[[u du] w]|]; [|injection H as <-; now apply step_refl].
  apply bind_ok in H as (h' & H2 & H). injection H as <-. cbn [fst]. destruct A as (q & Hq & E1 & E2).
  eapply bp_forward_step; eauto. eapply bp_check_sound; eauto.
Qed.
Lemma h_rewtrig_step h i e v h' : Inv h -> At h i e v -> h_rewtrig fk h i v e = Ok h' -> Step h h'.
Proof.
  intros I A H. destruct (At_node _ _ _ _ I A) as [W O]. unfold h_rewtrig in H.
  destruct (is_id _ _); [injection H as <-; now apply step_refl|].
  apply bind_ok in H as (o & Ho & H). destruct o as [l|]; [|injection H as <-; now apply step_refl].
  apply bind_ok in H as (h1 & H1 & H). injection H as <-. 
  assert (G : forall r, inB B r -> Forall (good r e) l) by (intros r Hr; eapply (rewrite_trig_sound r fk (HS r Hr)); eauto).
  apply (step_trans _ h1); [|intros; now apply set_ty_step]. clear Ho.
  revert h I A H1. induction l as [|a l IH]; intros h I A H1; cbn [foldM] in H1.
  - injection H1 as <-. now apply step_refl.
  - apply bind_ok in H1 as (h2 & H2 & H1).
    assert (S2 : Step h h2).
    { eapply add1_step; eauto. destruct A as (q & Hq & E1 & E2). intros q' Hq'. rewrite Hq in Hq'. injection Hq' as <-.
      rewrite E1, E2. apply child_id; auto. intros r Hr. specialize (G r Hr). now inversion G. }
    apply (step_trans _ h2); auto. intros I2. apply IH; auto.
    + intros r Hr. specialize (G r Hr). now inversion G.
    + eapply At_ext; eauto. apply S2.
Qed.
Lemma h_inv_step s i e v s' : Inv (fst s) -> At (fst s) i e v -> h_inv fk rng nm s i v e = Ok s' -> Step (fst s) (fst s').
Proof.
  destruct s as [h x]. cbn [fst]. intros I A H. destruct (At_node _ _ _ _ I A) as [W O]. unfold h_inv in H.
  match type of H with (if ?b then _ else _) = _ => destruct b end; [injection H as <-; now apply step_refl|].
  apply bind_ok in H as (o & Ho & H). destruct o as [[u g]|]; [|injection H as <-; now apply step_refl].
  cbv zeta in H. apply bind_ok in H as (h1 & H1 & H).
  destruct (inv_usub_sound B v O fk HS rng HR (nm x) (ex_intro _ _ H0) _ _ _ Ho W) as [A1 A2].
  assert (S1 : Step h h1).
  { eapply add1_step; eauto. destruct A as (q & Hq & E1 & E2). intros q' Hq'. rewrite Hq in Hq'. injection Hq' as <-.
    unfold child_ok. rewrite E1, E2. splits; auto. apply A2. }
  apply bind_ok in H as (o & Ho2 & H). destruct o as [r|]; [|injection H as <-; exact S1].
  destruct (dropped h i _) eqn:Dr; [injection H as <-; exact S1|].
  apply bind_ok in H as (h2 & H2 & H). injection H as <-. cbn [fst]. apply (step_trans _ h1); auto. intros I1.
  apply (add_id_at ISimp h1 (List.length h) g (nm x) (Some r) h2 I1); auto.
  - unfold add1 in H1. apply bind_ok in H1 as (q & Hq & H1). apply get_ok in Hq. apply sg0 in H1 as [_ H1]. rewrite Dr in H1.
    injection H1 as <-. exists (mkn g (nm x) (TUSub UInvTrig u) i). splits; auto.
    unfold append. rewrite nth_setn. destruct (Nat.eqb_spec i (List.length h)); [apply nth_lt in Hq; lia|].
    rewrite nth_error_app2 by auto. now rewrite Nat.sub_diag.
  - intros e' E W' r0 Hr. injection E as <-. eapply (simplify_step_sound r0 fk (HS r0 Hr)); eauto.
Qed.

Lemma heuristics_step s i s' : Inv (fst s) -> heuristics fk rng nm n s i = Ok s' -> Step (fst s) (fst s').
Proof.
  intros I H. unfold heuristics in H. apply bind_ok in H as (q & Hq & H). apply get_ok in Hq. cbv zeta in H.
  set (e := nd_e q) in *. set (v := nd_v q) in *.
  assert (A : At (fst s) i e v) by (exists q; auto).
  assert (NE : exists rho, inB B rho) by eauto.
  assert (Ok1 : forall a b, Step a b -> At a i e v -> Inv b /\ At b i e v) by (intros a b [X1 X2] X; split; auto; eapply At_ext; eauto).
  apply bind_ok in H as (s1 & H1 & H). apply bind_ok in H1 as (o & Ho & H1).
  assert (S1 : Step (fst s) (fst s1)).
  { eapply h_usub_step; eauto. intros u g E W O. subst o. eapply poly_usub_sound; eauto. }
  apply (step_trans _ _ _ S1). intros _. destruct (Ok1 _ _ S1 A) as [I1 A1]. clear H1 Ho o.
  apply bind_ok in H as (s2 & H1 & H). apply bind_ok in H1 as (o & Ho & H1). apply bind_ok in H1 as (h2 & H2 & H1).
  injection H1 as <-. cbn [fst snd] in H.
  assert (S2 : Step (fst s1) h2).
  { eapply add_id_at; eauto. intros e' E W r Hr. subst o. eapply (product_to_sum_unit_sound r fk (HS r Hr) n); eauto. }
  apply (step_trans _ _ _ S2). intros _. destruct (Ok1 _ _ S2 A1) as [I2 A2]. clear H2 Ho o.
  apply bind_ok in H as (s3 & H1 & H).
  assert (S3 : Step h2 (fst s3)).
  { match type of H1 with (if ?b then _ else _) = _ => destruct b end; [injection H1 as <-; now apply step_refl|].
    apply bind_ok in H1 as (o & Ho & H1). apply (h_usub_step UTrig2 (h2, snd s1) i o s3 e v); auto.
    intros u g E W O. subst o. eapply trig_usub_sound; eauto. }
  apply (step_trans _ _ _ S3). intros _. destruct (Ok1 _ _ S3 A2) as [I3 A3]. clear H1.
  apply bind_ok in H as (s4 & H1 & H).
  assert (S4 : Step (fst s3) (fst s4)) by (eapply h_byparts_step; eauto).
  apply (step_trans _ _ _ S4). intros _. destruct (Ok1 _ _ S4 A3) as [I4 A4]. clear H1.
  apply bind_ok in H as (s5 & H1 & H). apply bind_ok in H1 as (h5 & H5 & H1). injection H1 as <-. cbn [fst snd] in H.
  assert (S5 : Step (fst s4) h5) by (eapply h_rewtrig_step; eauto).
  apply (step_trans _ _ _ S5). intros _. destruct (Ok1 _ _ S5 A4) as [I5 A5]. clear H5.
  apply bind_ok in H as (s6 & H1 & H). apply bind_ok in H1 as (o & Ho & H1). apply bind_ok in H1 as (h6 & H6 & H1).
  injection H1 as <-. cbn [fst snd] in H.
  assert (S6 : Step h5 h6).
  { eapply add_id_at; eauto. intros e' E W r Hr. subst o. eapply (rewrite_pyth_sound r fk (HS r Hr)); eauto. }
  apply (step_trans _ _ _ S6). intros _. destruct (Ok1 _ _ S6 A5) as [I6 A6]. clear H6 Ho o.
  apply bind_ok in H as (s7 & H1 & H).
  assert (S7 : Step h6 (fst s7)) by (eapply (h_inv_step (h6, snd s4)); eauto).
  apply (step_trans _ _ _ S7). intros _. destruct (Ok1 _ _ S7 A6) as [I7 A7]. clear H1.
  apply bind_ok in H as (s8 & H1 & H). apply bind_ok in H1 as (o & Ho & H1). apply bind_ok in H1 as (h8 & H8 & H1).
  injection H1 as <-. cbn [fst snd] in H.
  assert (S8 : Step (fst s7) h8).
  { eapply add_id_at; eauto. intros e' E W r Hr. subst o. eapply (complete_square_sound r fk (HS r Hr)); eauto. }
  apply (step_trans _ _ _ S8). intros _. destruct (Ok1 _ _ S8 A7) as [I8 A8]. clear H8 Ho o.
  apply bind_ok in H as (o & Ho & H).
  apply (h_usub_step UGen (h8, snd s7) i o s' e v); auto. intros u g E W O. subst o. eapply generic_usub_sound; eauto.
Qed.

Lemma heuristically_step s i s' : Inv (fst s) -> heuristically fk rng nm n s i = Ok s' -> Step (fst s) (fst s').
Proof.
  intros I H. unfold heuristically in H. apply bind_ok in H as ([h x] & H1 & H). apply heuristics_step in H1; auto.
  cbn [fst] in H1. apply bind_ok in H as (b & Hb & H). destruct b; [injection H as <-; exact H1|].
  apply (step_trans _ _ _ H1). intros I1. apply bind_ok in H as (q & Hq & H).
  destruct (nd_kids q) as [|k ks] eqn:E.
  - injection H as <-. now apply set_ty_step.
  - cbv zeta in H. set (h' := match ks with [] => h | _ => _ end) in H.
    assert (S : Step h h'). { unfold h'. destruct ks; [now apply step_refl|now apply set_ty_step]. }
    apply (step_trans _ _ _ S). intros I2. 
    eapply (foldM_step2 (safely fk rng nm n n) (k :: ks)) with (s := (h', x)); eauto.
    intros s0 a s1 Ia Ha. eapply safely_step; eauto.
Qed.

Lemma cycle_step bf s i s' a : Inv (fst s) -> cycle fk rng nm n bf s i = Ok (s', a) -> Step (fst s) (fst s').
Proof.
  destruct s as [h x]. cbn [fst]. intros I H. unfold cycle in H. apply bind_ok in H as (l & Hl & H).
  apply bind_ok in H as (h1 & H1 & H). eapply foldM_step in H1; eauto using check_solvable_step.
  apply (step_trans _ _ _ H1). intros I1. apply bind_ok in H as (ul & Hu & H). destruct ul as [|j ul].
  - injection H as <- <-. now apply step_refl.
  - apply bind_ok in H as (s1 & H2 & H). apply bind_ok in H as (b & Hb & H). injection H as <- <-.
    now apply (heuristically_step (h1, x) j).
Qed.
Lemma run_step bf k : forall s c s', Inv (fst s) -> run fk rng nm n bf k s c = Ok s' -> Step (fst s) (fst s').
Proof.
  induction k as [|k IH]; intros s [i|] s' I H; cbn [run] in H; try discriminate;
    apply bind_ok in H as ([s1 a] & H1 & H); apply cycle_step in H1; auto.
  - injection H as <-. auto.
  - apply (step_trans _ _ _ H1). intros I1. apply bind_ok in H as (b & Hb & H).
    destruct b; [injection H as <-; now apply step_refl|]. destruct a.
    + apply bind_ok in H as (j & Hj & H). eauto.
    + eauto.
    + eauto.
Qed.

Theorem integrate_sound bf k fin e v F : integrate fk rng nm n bf k fin e v = Ok (Some F) -> wdB B e -> openv B v ->
  AntiOn B v (fun r => ev r e) F.
Proof.
  intros H W O. unfold integrate in H. apply bind_ok in H as (e0 & He & H).
  assert (G : forall r, inB B r -> good r e e0) by (intros r Hr; eapply (simplifyE_sound r fk (HS r Hr) n); eauto).
  assert (W0 : wdB B e0) by (intros r Hr; now apply G).
  apply bind_ok in H as (s0 & Hs & H). apply (safely_step _ ([mkroot e0 v], 0)) in Hs; [|now apply mkroot_inv]. destruct Hs as [I0 E0].
  apply bind_ok in H as (s1 & Hs1 & H). apply run_step in Hs1; auto. destruct Hs1 as [I1 E1].
  apply bind_ok in H as (b & Hb & H). destruct b; [|discriminate]. apply bind_ok in H as ([h2 r] & Hg & H).
  apply go_backwards_step in Hg as [[I2 E2] Hr]; auto.
  assert (A : AntiOn B v (fun r => ev r e) r).
  { eapply AntiOn_fext; [eapply (root_sol e0 v h2); eauto|].
    - eapply Root_ext; [apply mkroot_root|]. eapply ext_trans; [exact E0|]. eapply ext_trans; eauto.
    - intros r1 Hr1. now apply G. }
  destruct fin; [|injection H as <-; exact A]. apply bind_ok in H as (r' & Hr' & H). injection H as <-.
  eapply AntiOn_ext; eauto. intros r1 Hr1. eapply (simplifyE_sound r1 fk (HS r1 Hr1) n); eauto. now apply A.
Qed.
End Sound.
