(** * LinTot: Sum, Prod and simplify on a polynomial in v plus a combination of sin(a) and cos(a) with
    linear arguments a = k v + b (for C96); [TrigTot] with more arguments of the functions. *)
From Coquelicot Require Import Coquelicot.
From Verif Require Import Base Expr Kernel Mono Funcs FMono Calc Sem RealLemmas Sound Atoms Combi Expand Factor Regex Simp TrigSimp Frag FragLib FragX FragXLib FragG.
From Coq Require Import Permutation Lqa Qpower.
From Coq Require DecimalString.
Close Scope R_scope.
Open Scope nat_scope.

(** ** The bases: v, and sin and cos of v and of linear arguments  k v,  v + b,  k v + b  *)
Definition lterm (v : string) (a : expr) : Prop := a = ESym v \/ exists k, ~ (k == 0)%Q /\ ~ (k == 1)%Q /\ a = EProd [ERat k; ESym v].
Definition lin (v : string) (i : expr) : Prop :=
  is_sub i = false /\ (lterm v i \/ exists a b, lterm v a /\ ~ (b == 0)%Q /\ i = ESum [a; ERat b]).
Definition tb (v : string) (b : expr) : Prop := b = ESym v \/ exists f i, (f = Sin \/ f = Cos) /\ lin v i /\ b = ETrig f i.
Ltac dar H := destruct H as (? & [[->|(? & ? & ? & ->)]|(? & ? & [->|(? & ? & ? & ->)] & ? & ->)]).
Ltac dtb H := destruct H as [->|(? & ? & [-> | ->] & (? & [[->|(? & ? & ? & ->)]|(? & ? & [->|(? & ? & ? & ->)] & ? & ->)]) & ->)].
Definition natx : expr -> Q -> Prop := fun _ => natq.
Definition nonrat (b : expr) : bool := negb (is_rat b).
Lemma nonrat_rat q : nonrat (ERat q) = false.
Proof. reflexivity. Qed.

Section Cls.
Context (v : string) (Hv : v <> ""%string).
Notation B := (tb v). Notation targ := (lin v).
(** v, a power of v, sin(v) or cos(v) *)
Inductive tx : expr -> Prop :=
| tx_v : tx (ESym v)
| tx_pow q : natq q -> ~ (q == 0)%Q -> tx (EPow (ESym v) (ERat q))
| tx_trig f i : f = Sin \/ f = Cos -> targ i -> tx (ETrig f i).
(** a rational multiple of one of these, or a number *)
Inductive tmono : expr -> Prop :=
| tm_q q : tmono (ERat q)
| tm_x x : tx x -> tmono x
| tm_qx q x : ~ (q == 0)%Q -> tx x -> tmono (EProd [ERat q; x])
| tm_xq q x : ~ (q == 0)%Q -> tx x -> tmono (EProd [x; ERat q]).
Definition tpoly (t : expr) : Prop := tmono t \/ exists ts, t = ESum ts /\ 2 <= List.length ts /\ Forall tmono ts.

Lemma uint_ne u : DecimalString.NilZero.string_of_uint u <> ""%string.
Proof. destruct u; discriminate. Qed.
Lemma str_Z_ne z : str_Z z <> ""%string.
Proof. destruct z; unfold str_Z; cbn; try discriminate; apply uint_ne. Qed.
Lemma str_Q_ne q : str_Q q <> ""%string.
Proof. unfold str_Q. destruct (denom q =? 1)%Z; [apply str_Z_ne|]. pose proof (str_Z_ne (numer q)). destruct (str_Z (numer q)); [congruence|discriminate]. Qed.
Lemma trig_lin k f i : f = Sin \/ f = Cos -> targ i -> trig_base k f i = Ok (ETrig f i).
Proof.
  intros Hf H. unfold trig_base. assert (E : isq i 0 = false /\ has_pi i = false /\ trig_inner k f i = Ok (ETrig f i)) by (dar H; auto).
  destruct E as (-> & -> & ->). now rewrite andb_false_r.
Qed.
Lemma mk_trig_lin k n f i : f = Sin \/ f = Cos -> targ i -> mk_trig k (S n) f i = Ok (ETrig f i).
Proof. intros Hf H. pose proof (trig_lin k f i Hf H) as T. pose proof (proj1 H) as E1. destruct Hf as [-> | ->]; cbn [mk_trig]; rewrite ?E1, T; cbn [bind]; rewrite ?E1; reflexivity. Qed.
(** printing *)
Lemma repr_prod_ne c n a b ts r : k_repr (K c (S n)) (EProd (a :: b :: ts)) = Ok r -> r <> ""%string.
Proof.
  intros H. change (k_repr (K c (S n))) with (repr_body c (K c n)) in H. cbn [repr_body] in H. destruct (is_sub _).
  - apply bind_ok in H as (m & _ & H). destruct (is_prod m).
    + destruct (is_sub m); [discriminate|]. apply bind_ok in H as (s & _ & H). injection H as <-. discriminate.
    + apply bind_ok in H as (s & _ & H). injection H as <-. discriminate.
  - apply bind_ok in H as ([nu de] & _ & H). destruct (isq de 1).
    + apply bind_ok in H as (ss & Es & H). injection H as <-. cbn [mapM] in Es. apply bind_ok in Es as (x & _ & Es). apply bind_ok in Es as (l & El & Es). injection Es as <-.
      apply bind_ok in El as (y & _ & El). apply bind_ok in El as (l' & _ & El). injection El as <-. cbn [String.concat]. destruct x; discriminate.
    + apply bind_ok in H as (x & _ & H). apply bind_ok in H as (y & _ & H). injection H as <-. destruct x; discriminate.
Qed.
Lemma lterm_repr c n a : lterm v a -> exists s, k_repr (K c (7 + n)) a = Ok s /\ s <> ""%string.
Proof.
  intros H.
  destruct H as [->|(k & K0 & K1 & ->)]; [exists v; split; [reflexivity|exact Hv]|].
  destruct (Frag.repr_mono natq c n (EProd [ERat k; ESym v])) as (s & Es).
  { apply mono_prod; [simpl; lia| |simpl; lia|]; [|repeat constructor; auto]. constructor; [apply fac_rat|]. constructor; [|constructor]. apply fac_at, at_sym. exact Hv. }
  exists s. split; [exact Es|]. eapply (repr_prod_ne c (6 + n)); exact Es.
Qed.
Lemma lterm_mono a : lterm v a -> Frag.mono natq a.
Proof.
  intros [->|(k & K0 & K1 & ->)]; [now apply mono_fac, fac_at, at_sym|].
  apply mono_prod; [simpl; lia| |simpl; lia|]; [|repeat constructor; auto]. constructor; [apply fac_rat|]. constructor; [|constructor]. apply fac_at, at_sym. exact Hv.
Qed.
Lemma lin_expandable (dom : expr -> bool) c n i : lin v i -> expandable (F dom c (8 + n)) i = Ok false.
Proof.
  intros (_ & [H|(a & b & H & Nb & ->)]); [apply expandable_nmono; now apply lterm_mono|]. apply expandable_nsum. constructor; [now apply lterm_mono|]. constructor; [apply mono_fac, fac_rat|constructor].
Qed.
Lemma lin_repr c n i : lin v i -> exists s, k_repr (K c (8 + n)) i = Ok s /\ s <> ""%string.
Proof.
  intros (_ & [H|(a & b & H & Nb & ->)]); [exact (lterm_repr c (1 + n) i H)|]. destruct (lterm_repr c n a H) as (s & Es & Ns).
  change (8 + n) with (S (7 + n)). change (k_repr (K c (S (7 + n)))) with (repr_body c (K c (7 + n))). cbn [repr_body sum_repr_rest]. rewrite Es. cbn [bind is_sub].
  assert (G : exists t, (if qlt0 b then m <- op_neg (K c (7 + n)) (ERat b);; s0 <- k_repr (K c (7 + n)) m;; Ok (String.append " - " s0)
    else s0 <- k_repr (K c (7 + n)) (ERat b);; Ok (String.append " + " s0)) = Ok t /\ t <> ""%string).
  { destruct (qlt0 b); cbn [op_neg bind]; unfold rat; eexists; (split; [reflexivity|discriminate]). }
  destruct G as (t & -> & Nt). cbn [bind]. eexists. split; [reflexivity|]. destruct s; [congruence|discriminate].
Qed.
Lemma repr_t c n f i : f = Sin \/ f = Cos -> lin v i -> exists r, k_repr (K c (9 + n)) (ETrig f i) = Ok r /\ r <> ""%string.
Proof.
  intros Hf Hi. destruct (lin_repr c n i Hi) as (s & Es & Ns).
  change (9 + n) with (S (8 + n)). change (k_repr (K c (S (8 + n)))) with (repr_body c (K c (8 + n))). destruct Hf as [-> | ->]; cbn [repr_body]; unfold repr_fn; rewrite Es;
    cbn [bind]; destruct (str_nonempty _ Ns) as (a & ->), (last_nonempty _ Ns) as (z & ->); (eexists; split; [reflexivity|]; destruct (_ && _); discriminate).
Qed.
Lemma tb_opaque : opaqueJ 6 B.
Proof.
  constructor.
  - intros b H. dtb H; reflexivity.
  - intros a b H1 H2. dtb H1; dtb H2; reflexivity.
  - intros a b H1 H2 E. apply eqb_coin; auto. clear E. dtb H1; dtb H2; reflexivity.
  - intros b H. dtb H; eexists; reflexivity.
  - intros c n b [->|(f & i & Hf & Hi & ->)].
    + exists v. split; [reflexivity|exact Hv].
    + exact (repr_t c n f i Hf Hi).
Qed.
Let HB := tb_opaque.
Lemma natx_C : forall b p q, (p == q)%Q -> natx b p -> natx b q.
Proof. intros b. exact natq_qeq. Qed.
Lemma natx_A : forall b p q, natx b p -> natx b q -> natx b (p + q)%Q.
Proof. intros b. exact natq_add. Qed.
Lemma natx_1 : forall b, B b -> natx b 1%Q.
Proof. intros b _. exact one_natq. Qed.
Notation atom := (oatom B natx). Notation fac := (ofac B natx). Notation mono := (omono B natx).
Hint Resolve natx_C natx_A natx_1 : core.
Hint Constructors oatom ofac omono opoly tx tmono : core.

Lemma tx_atom x : tx x -> atom x.
Proof.
  intros [|q N Z|f i F I1]; [apply oat_b; now left|apply oat_pow; auto; now left|]. apply oat_b. right. exists f, i. auto.
Qed.
Lemma tx_facts x : tx x -> is_rat x = false /\ is_acc x = false /\ flat_prod1 x = [x] /\ selb nonrat x = true /\ isq x 0 = false /\ decon_prod x = ([ERat 1], [x]) /\ (exists b, bases x = [b]).
Proof. intros [|q N Z|f i F I1]; repeat split; try reflexivity; eexists; reflexivity. Qed.
Lemma tmono_mono t : tmono t -> mono t.
Proof.
  intros [q|x T|q x Z T|q x Z T]; auto.
  - apply omono_fac, ofac_at, tx_atom, T.
  - pose proof (tx_atom x T) as A. destruct (tx_facts x T) as (R & _ & _ & _ & _ & _ & (b & E)). apply omono_prod; auto; simpl; rewrite ?R, ?E; simpl; auto. repeat constructor; auto.
  - pose proof (tx_atom x T) as A. destruct (tx_facts x T) as (R & _ & _ & _ & _ & _ & (b & E)). apply omono_prod; auto; simpl; rewrite ?R, ?E; simpl; auto. repeat constructor; auto.
Qed.
Lemma tmonos l : Forall tmono l -> Forall mono l.
Proof. apply Forall_impl. exact tmono_mono. Qed.
Lemma tpoly_poly t : tpoly t -> opoly B natx t.
Proof. intros [M|(ts & -> & L & F)]; [apply opoly_mono; now apply tmono_mono|]. apply opoly_sum; auto. now apply tmonos. Qed.
(** the factor of a term that is not a number *)
Definition xs (t : expr) : list expr := filter (selb nonrat) (flat_prod1 t).
Lemma xs_tx t : tmono t -> Forall tx (xs t) /\ List.length (xs t) <= 1.
Proof.
  intros [q|x T|q x Z T|q x Z T]; unfold xs; try (destruct (tx_facts x T) as (_ & _ & E & S & _)).
  - split; [constructor|simpl; lia].
  - rewrite E. cbn [filter]. rewrite S. split; auto.
  - change (flat_prod1 (EProd [ERat q; x])) with ([ERat q] ++ flat_prod1 x ++ []). destruct T; cbn; split; auto.
  - change (flat_prod1 (EProd [x; ERat q])) with (flat_prod1 x ++ [ERat q] ++ []). destruct T; cbn; split; auto.
Qed.
Lemma nodup1 {A} (l : list A) : List.length l <= 1 -> NoDup l.
Proof. destruct l as [|a [|b l]]; simpl; [constructor|repeat constructor; auto|lia]. Qed.

(** Prod of terms with at most one factor that is not a number *)
Theorem tprod c n l : Forall tmono l -> List.length (flat_map xs l) <= 1 ->
  exists r, k_prod (K c (12 + n)) l = Ok r /\ tmono r.
Proof.
  intros F L.
  assert (Ex : filter (selb nonrat) (flat_prod l) = flat_map xs l).
  { clear. induction l as [|t l IH]; auto. unfold flat_prod in *. cbn [flat_map]. rewrite filter_app, IH. reflexivity. }
  assert (Tx : Forall tx (flat_map xs l)).
  { clear L Ex. induction F as [|t l T F IH]; [constructor|]. cbn [flat_map]. apply Forall_app. split; auto. now apply xs_tx. }
  assert (Lb : List.length (flat_map bases (flat_map xs l)) <= 1).
  { destruct (flat_map xs l) as [|x [|y m]]; simpl in *; [lia| |lia]. inversion Tx as [|? ? T _]; subst. destruct (tx_facts x T) as (_ & _ & _ & _ & _ & _ & (b & ->)). simpl. lia. }
  destruct (prod_selJ B HB natx natx_C natx_A natx_1 nonrat nonrat_rat c n l (tmonos l F)) as (r & E & M & Z & _ & H).
  { rewrite Ex. now apply nodup1. }
  exists r. split; [exact E|]. rewrite Ex in H. destruct H as [P|(q & -> & _)]; [|constructor]. fold (xs r) in P.
  assert (Tr : Forall tx (xs r)) by (eapply Permutation_Forall; [symmetry; exact P|exact Tx]). apply Permutation_length in P. rewrite <- P in L. clear P. rename L into P.
  destruct M as [e Fe|ts L2 Fs R N].
  - destruct Fe as [a A|q]; [|constructor]. unfold xs in Tr. assert (Ea : flat_prod1 a = [a]) by (destruct A as [b A|b q A ? ?]; dtb A; reflexivity).
    rewrite Ea in Tr. cbn [filter] in Tr. assert (S : selb nonrat a = true) by (destruct A as [b A|b q A ? ?]; dtb A; reflexivity). rewrite S in Tr. inversion Tr; auto.
  - unfold xs in Tr, P. cbn [flat_prod1] in Tr, P. fold (flat_prod ts) in Tr, P. rewrite (flat_prod_fac B HB natx ts Fs) in Tr, P. cbn [nzp] in Z.
    assert (Sp : forall t, fac t -> (selb nonrat t = true /\ is_rat t = false) \/ (exists q, t = ERat q)).
    { intros t [a A|q]; [left|right; eauto]. destruct A as [b A|b q A ? ?]; dtb A; auto. }
    assert (Len : List.length ts = List.length (rats ts) + List.length (filter (selb nonrat) ts)).
    { clear -Fs Sp. induction Fs as [|t ts T F IH]; auto. unfold rats in *. cbn [filter List.length]. destruct (Sp t T) as [[-> ->]|(q & ->)]; cbn [is_rat List.length]; [|change (selb nonrat (ERat q)) with false; cbv iota]; cbn [List.length]; lia. }
    assert (L3 : List.length ts <= 2) by lia. destruct ts as [|a [|b [|d ts]]]; simpl in L2, L3; try lia. clear Len L3.
    inversion Fs as [|? ? Fa Fs']; subst. inversion Fs' as [|? ? Fb _]; subst. inversion Z as [|? ? Za Z']; subst. inversion Z' as [|? ? Zb _]; subst.
    destruct (Sp a Fa) as [[Sa Ra]|(q & ->)], (Sp b Fb) as [[Sb Rb]|(q' & ->)].
    + cbn [filter] in P. rewrite Sa, Sb in P. simpl in P. lia.
    + cbn [filter] in Tr. rewrite Sa in Tr. inversion Tr; subst. apply tm_xq; auto. now apply isq_rat_f.
    + cbn [filter] in Tr. rewrite Sb in Tr. change (selb nonrat (ERat q)) with false in Tr. cbv iota in Tr. inversion Tr; subst. apply tm_qx; auto. now apply isq_rat_f.
    + simpl in R. lia.
Qed.

(** Sum of such terms *)
Lemma decon_t t cs ncf : tmono t -> is_rat t = false -> decon_prod t = (cs, ncf) -> exists x, ncf = [x] /\ tx x.
Proof.
  intros [q|x T|q x Z T|q x Z T] R E; [discriminate| | |].
  - destruct (tx_facts x T) as (_ & _ & _ & _ & _ & D & _). rewrite D in E. injection E as <- <-. eauto.
  - destruct (tx_facts x T) as (_ & A & _). cbn [decon_prod filter is_acc] in E. rewrite A in E. injection E as <- <-. eauto.
  - destruct (tx_facts x T) as (_ & A & _). cbn [decon_prod filter is_acc] in E. rewrite A in E. injection E as <- <-. eauto.
Qed.
Lemma combine_t c : forall f l nc cs, Forall tmono l -> combine_sum_go c f l = Ok (nc, cs) -> Forall tmono nc.
Proof.
  induction f as [|f IH]; intros l nc cs F E; (destruct l as [|t l]; [cbn in E; injection E as <- <-; auto|]); [discriminate|].
  inversion F as [|? ? T F']; subst. cbn [combine_sum_go] in E. destruct (is_acc t) eqn:At.
  { apply bind_ok in E as ([nc1 cs1] & E1 & E). injection E as <- <-. eauto. }
  assert (R : is_rat t = false) by (destruct t; auto; discriminate).
  destruct (decon_prod t) as [coeffs ncf] eqn:D. destruct (decon_t t coeffs ncf T R D) as (x & -> & Tx).
  destruct (decon_prod_mono B HB natx t coeffs [x] (tmono_mono t T) R D) as (D1 & _).
  apply bind_ok in E as ([hits rest] & E1 & E). apply bind_ok in E as ([nc1 cs1] & E2 & E).
  assert (Fr : Forall tmono rest).
  { clear -F' E1. revert hits rest E1. induction F' as [|u l U F IHl]; intros hits rest E1; cbn [split_like] in E1; [injection E1 as <- <-; auto|].
    destruct (decon_prod u) as [cs2 ncf2]. apply bind_ok in E1 as (b & _ & E1). apply bind_ok in E1 as ([h1 r1] & E2 & E1). apply IHl in E2. destruct b; injection E1 as <- <-; auto. }
  pose proof (IH _ _ _ Fr E2) as Fn.
  destruct hits as [|h hits]; [injection E as <- <-; auto|].
  apply bind_ok in E as (co & E3 & E). destruct (isq co 0) eqn:C0; [injection E as <- <-; auto|].
  assert (Hx : is_acc x = false) by now apply tx_facts.
  destruct (isq co 1).
  - apply bind_ok in E as (p & E4 & E). injection E as <- <-. constructor; auto.
    assert (p = x) by (cbn in E4; destruct x; congruence). subst p. auto.
  - apply bind_ok in E as (p & E4 & E). injection E as <- <-. constructor; auto.
    assert (Rc : exists q, co = ERat q).
    { assert (Hh : Forall (fun t => is_rat t = true) (h :: hits)).
      { destruct (split_like_mono B HB natx c [x] l (Forall_cons _ (ofac_at _ _ _ (tx_atom x Tx)) (Forall_nil _)) (tmonos l F')) as (h' & r' & Eq & Hh & _). rewrite E1 in Eq. injection Eq as <- <-. exact Hh. }
      destruct (acc_sum_rats (coeffs ++ h :: hits)) as (q & Eq & _); [apply Forall_app; auto|]. rewrite E3 in Eq. injection Eq as ->. eauto. }
    destruct Rc as (q & ->). assert (p = EProd [ERat q; x]) by (cbn in E4; congruence). subst p. apply tm_qx; auto. now apply isq_rat_f.
Qed.
Theorem tsum c n l : Forall tpoly l -> exists r, k_sum (K c (16 + n)) l = Ok r /\ tpoly r.
Proof.
  intros F. destruct (k_sum_polyJ B HB natx c n l) as (r & E & P). { eapply Forall_impl; [|exact F]. exact tpoly_poly. }
  exists r. split; [exact E|].
  assert (Ft : Forall tmono (flat_sum l)).
  { clear E. induction F as [|t l T F IH]; [constructor|]. unfold flat_sum in *. cbn [flat_map]. apply Forall_app. split; auto.
    destruct T as [T|(ts & -> & _ & Ts)]; [rewrite (flat_mono B HB natx t (tmono_mono t T)); auto|]. cbn [flat_sum1]. clear -Ts Hv HB. induction Ts as [|t l T Ts IH]; [constructor|].
    cbn [flat_map]. rewrite (flat_mono B HB natx t (tmono_mono t T)). constructor; auto. }
  change (K c (16 + n)) with (build c (K c (15 + n))) in E. cbn [build k_sum] in E. unfold sum_body, combine_sum in E.
  apply bind_ok in E as (ts & E1 & E). apply bind_ok in E1 as ([nc cs] & E0 & E1). pose proof (combine_t c _ _ _ _ Ft E0) as Fn.
  destruct (combine_sum_go_mono B HB natx c (List.length (flat_sum l)) (flat_sum l) (tmonos _ Ft) (Nat.le_refl _)) as (nc' & cs' & E0' & _ & Rc). rewrite E0 in E0'. injection E0' as <- <-.
  assert (Fts : Forall tmono ts).
  { destruct cs as [|k0 cs]; [injection E1 as <-; auto|]. destruct (acc_sum_rats (k0 :: cs) Rc) as (q & Eq & _). rewrite Eq in E1. cbn [bind] in E1.
    destruct (isq (ERat q) 0); injection E1 as <-; auto. apply Forall_app. split; auto. }
  destruct ts as [|t [|u ts]].
  - injection E as <-. left. constructor.
  - injection E as <-. inversion Fts; subst. now left.
  - apply bind_ok in E as (s & Hs & E). injection E as <-. pose proof (Sound.sort_perm _ _ _ Hs) as Ps. right. exists (rev s). split; [reflexivity|]. split.
    + rewrite rev_length, <- (Permutation_length Ps). simpl. lia.
    + apply Forall_rev. eapply Permutation_Forall; eauto.
Qed.

(** ** simplify *)
Section Simplify.
Context (dom : expr -> bool) (c : cfg) (n : nat).
Notation fk := (F dom c (16 + n)).
Lemma t_HD : forall b q, B b -> natx b q -> pow_always b (ERat q) || dom (EPow b (ERat q)) = true.
Proof. intros b q _ N. now rewrite (pow_always_nat b q N). Qed.
Lemma t_HN : forall b q, B b -> natx b q -> (q < 0)%Q -> pow_always b (rat (- q)) || dom (EPow b (rat (- q))) = true.
Proof. intros b q _ [_ N] L. lra. Qed.
Lemma t_HE : forall b, B b -> expandable fk b = Ok false.
Proof.
  intros b [->|(f & i & _ & Hi & ->)]; [reflexivity|]. change (expandable fk (ETrig f i)) with (expandable fk i). exact (lin_expandable dom c (8 + n) i Hi).
Qed.
Lemma expandable_t t : tpoly t -> expandable fk t = Ok false.
Proof. intros T. apply (expandable_opolyJ B HB natx dom c n t_HN t_HE t). now apply tpoly_poly. Qed.

Lemma ktrig_t f i : f = Sin \/ f = Cos -> targ i -> k_trig fk f i = Ok (ETrig f i).
Proof.
  intros Hf Hi.
  change (k_trig fk f i) with (guard (trig_always f || dom (ETrig f i)) (mk_trig (gk dom (K c (16 + n))) (S (15 + n)) f i)).
  rewrite (mk_trig_lin _ _ f i Hf Hi). destruct Hf as [-> | ->]; reflexivity.
Qed.
Section Walk.
Context (p : expr -> res (option (expr * bool))) (Hp : forall t, tpoly t -> p t = Ok None \/ p t = Ok (Some (t, false))) (Hi : forall i, targ i -> p i = Ok (Some (i, false))).
Lemma walk_q q : walk fk p (ERat q) = Ok (ERat q, false).
Proof. cbn [walk]. destruct (Hp (ERat q) (or_introl (tm_q q))) as [-> | ->]; reflexivity. Qed.
Lemma walk_tx x : tx x -> exists r, walk fk p x = Ok (r, false) /\ tx r.
Proof.
  intros T. destruct (Hp x (or_introl (tm_x x T))) as [E|E].
  2:{ exists x. split; [|exact T]. destruct T; cbn [walk]; rewrite E; reflexivity. }
  assert (Hs : walk fk p (ESym v) = Ok (ESym v, false)) by (cbn [walk]; destruct (Hp (ESym v) (or_introl (tm_x _ tx_v))) as [-> | ->]; reflexivity).
  destruct T as [|q N Z|f i Hf Ha].
  - exists (ESym v). auto.
  - pose proof (walk_q q) as Hq. cbn [walk] in Hs, Hq |- *. rewrite E. cbn [bind]. rewrite Hs. cbn [bind]. rewrite Hq. cbn [bind].
    pose proof (fk_pow_baseJ B HB dom c n (ESym v) q (or_introl eq_refl) (t_HD _ _ (or_introl eq_refl) N)) as Ep. change (F dom c (10 + 6 + n)) with fk in Ep. rewrite Ep.
    assert (Z' : Qeq_bool q 0 = false) by (apply Bool.not_true_is_false; rewrite Qeq_bool_iff; exact Z). rewrite Z'.
    destruct (Qeq_bool q 1); cbn [bind orb]; eauto.
  - assert (Hw : walk fk p i = Ok (i, false)) by (pose proof (Hi i Ha) as E2; destruct i; cbn [walk]; rewrite E2; reflexivity).
    cbn [walk]. rewrite E. cbn [bind]. rewrite Hw. cbn [bind]. rewrite (ktrig_t f i Hf Ha). cbn [bind]. eauto.
Qed.
Lemma walk_tmono t : tmono t -> exists r, walk fk p t = Ok (r, false) /\ tmono r.
Proof.
  intros T. destruct (Hp t (or_introl T)) as [E|E].
  2:{ exists t. split; [|exact T]. destruct t; cbn [walk]; rewrite E; reflexivity. }
  destruct T as [q|x Tx|q x Z Tx|q x Z Tx].
  - rewrite walk_q. eauto.
  - destruct (walk_tx x Tx) as (r & Er & Tr). eauto.
  - destruct (walk_tx x Tx) as (r & Er & Tr). pose proof (walk_q q) as Hq. cbn [walk] in Hq |- *. rewrite E. cbn [bind]. rewrite Hq. cbn [bind orb]. rewrite Er. cbn [bind orb].
    destruct (tprod c (4 + n) [ERat q; r]) as (y & Ey & Ty); [auto| |].
    { cbn [flat_map]. rewrite app_nil_r. change (xs (ERat q)) with (@nil expr). apply xs_tx; auto. }
    change (k_prod fk [ERat q; r]) with (k_prod (K c (12 + (4 + n))) [ERat q; r]). rewrite Ey. cbn [bind]. eauto.
  - destruct (walk_tx x Tx) as (r & Er & Tr). pose proof (walk_q q) as Hq. cbn [walk] in Hq |- *. rewrite E. cbn [bind]. rewrite Er. cbn [bind orb]. rewrite Hq. cbn [bind orb].
    destruct (tprod c (4 + n) [r; ERat q]) as (y & Ey & Ty); [auto| |].
    { cbn [flat_map]. change (xs (ERat q)) with (@nil expr). rewrite !app_nil_r. apply xs_tx; auto. }
    change (k_prod fk [r; ERat q]) with (k_prod (K c (12 + (4 + n))) [r; ERat q]). rewrite Ey. cbn [bind]. eauto.
Qed.
Lemma walk_tpoly t : tpoly t -> exists r, walk fk p t = Ok (r, false) /\ tpoly r.
Proof.
  intros T. destruct (Hp t T) as [E|E].
  2:{ exists t. split; [|exact T]. destruct t; cbn [walk]; rewrite E; reflexivity. }
  destruct T as [T|(ts & -> & L & Fs)].
  - destruct (walk_tmono t T) as (r & Er & Tr). exists r. split; auto. now left.
  - cbn [walk]. rewrite E. cbn [bind].
    match goal with |- exists r, ('(ts', h0) <- ?g ts;; _) = _ /\ _ => assert (G : exists ts', g ts = Ok (ts', false) /\ Forall tpoly ts') end.
    { clear -Fs Hp Hv HB Hi. induction Fs as [|t ts T Fs (ts' & IH & M)]; [eauto|]. destruct (walk_tmono t T) as (r & Er & Mr). rewrite Er. cbn [bind]. rewrite IH. cbn [bind orb].
      exists (r :: ts'). split; auto. constructor; auto. now left. }
    destruct G as (ts' & -> & M). cbn [bind]. destruct (tsum c n ts' M) as (r & Er & Mr).
    change (k_sum fk ts') with (k_sum (K c (16 + n)) ts'). rewrite Er. cbn [bind]. eauto.
Qed.
End Walk.

Lemma quiet (p : expr -> bool) t : (forall q, p (ERat q) = false) -> (forall x, tx x -> gcontains p x = false) ->
  (forall ts, p (EProd ts) = false) -> (forall ts, p (ESum ts) = false) -> tpoly t -> gcontains p t = false.
Proof.
  intros P1 P2 P4 P5.
  assert (Mc : forall t, tmono t -> gcontains p t = false).
  { intros u [q|x T|q x Z T|q x Z T]; cbn [gcontains existsb]; rewrite ?P4, ?P1; auto; now rewrite (P2 x T). }
  intros [M|(ts & -> & L & Fs)]; auto. cbn [gcontains]. rewrite P5. cbn [orb]. clear -Mc Fs. induction Fs as [|a l A H IH]; auto. cbn [existsb]. now rewrite (Mc a A), IH.
Qed.

(** rewrite_as_one_fraction: there is no denominator with a symbol *)
Lemma numden_t t : tmono t -> exists m z, term_numden fk false t = Ok (m, ratz z, false).
Proof.
  intros [q|x [|q N Z|f i Hf Hi]|q x Z T|q x Z T].
  - exists (ERat q), 1%Z. reflexivity.
  - exists (ESym v), 1%Z. reflexivity.
  - exists (EPow (ESym v) (ERat q)), 1%Z. cbn [term_numden]. destruct N as [_ N]. apply qlt0_f in N. now rewrite N.
  - exists (ETrig f i), 1%Z. reflexivity.
  - cbn [term_numden]. assert (G : exists m z, numdenF fk [ERat q; x] = Ok (m, ratz z)).
    { unfold numdenF. assert (G : numden_go fk [x] = Ok ([x], [])).
      { destruct T as [|q' N Z'|f i Hf Hi]; [reflexivity| |destruct Hf as [-> | ->]; reflexivity]. cbn [numden_go decon_pow]. destruct N as [_ N]. apply qlt0_f in N. now rewrite N. }
      cbn [numden_go]. cbn [numden_go] in G. rewrite G. clear G. cbn [bind].
      assert (O : is_acc x = false) by now apply tx_facts.
      destruct (numer q =? 1)%Z, (denom q =? 1)%Z; unfold one_constb; cbn [filter is_acc ratz List.length]; rewrite ?O; cbn [List.length]; rewrite orb_true_r; cbn [guard prod_skip bind];
       destruct T; first [eexists _, 1%Z; reflexivity|eexists _, _; reflexivity]. }
    destruct G as (m & z & ->). cbn [bind symbols ratz]. rewrite andb_false_r. eauto.
  - cbn [term_numden]. assert (G : exists m z, numdenF fk [x; ERat q] = Ok (m, ratz z)).
    { unfold numdenF. assert (G : forall l m d, numden_go fk l = Ok (m, d) -> numden_go fk (x :: l) = Ok (x :: m, d)).
      { intros l m d El. destruct T as [|q' N Z'|f i Hf Hi]; [| |destruct Hf as [-> | ->]]; cbn [numden_go decon_pow]; rewrite El; try reflexivity. destruct N as [_ N]. apply qlt0_f in N. cbn [bind]. now rewrite N. }
      assert (Eq : numden_go fk [ERat q] = Ok (if (numer q =? 1)%Z then [] else [ratz (numer q)], if (denom q =? 1)%Z then [] else [ratz (denom q)])) by reflexivity.
      rewrite (G _ _ _ Eq). clear G Eq. cbn [bind].
      assert (O : is_acc x = false) by now apply tx_facts.
      destruct (numer q =? 1)%Z, (denom q =? 1)%Z; unfold one_constb; cbn [filter is_acc ratz List.length]; rewrite ?O; cbn [List.length filter is_acc]; rewrite orb_true_r; cbn [guard prod_skip bind];
       destruct T; first [eexists _, 1%Z; reflexivity|eexists _, _; reflexivity]. }
    destruct G as (m & z & ->). cbn [bind symbols ratz]. rewrite andb_false_r. eauto.
Qed.

Definition israt (t : expr) : Prop := exists q, t = ERat q.
Lemma eq_rat p q : k_eq fk (ERat p) (ERat q) = Ok (eeqb (ERat p) (ERat q)).
Proof. change (k_eq fk (ERat p) (ERat q)) with (py_eq c (ERat p) (ERat q)). unfold py_eq. cbn [coin]. now rewrite andb_false_r. Qed.
Lemma add_common_q acc q : Forall israt acc -> exists r, add_common fk acc [ERat q] = Ok r /\ Forall israt r.
Proof.
  intros A. cbn [add_common]. assert (G : exists b, anyM (fun t => k_eq fk t (ERat q)) acc = Ok b).
  { induction A as [|t acc (p & ->) A (b & IH)]; [cbn; eauto|]. cbn [anyM]. rewrite eq_rat. cbn [bind]. destruct (eeqb _ _); eauto. }
  destruct G as (b & ->). cbn [bind]. eexists. split; [reflexivity|]. destruct b; auto. apply Forall_app. split; auto. repeat constructor. eexists; reflexivity.
Qed.
Lemma one_fraction_t ts : Forall tmono ts -> one_fraction fk false (ESum ts) = Ok None.
Proof.
  intros F. cbn [one_fraction].
  assert (G : exists l, mapM (term_numden fk false) ts = Ok l /\ Forall (fun p => israt (snd (fst p)) /\ snd p = false) l).
  { induction F as [|t ts T F (l & IH & Fl)]; [exists []; auto|]. destruct (numden_t t T) as (m & z & E). cbn [mapM]. rewrite E. cbn [bind]. rewrite IH. cbn [bind].
    eexists. split; [reflexivity|]. constructor; auto. split; [eexists; reflexivity|reflexivity]. }
  destruct G as (l & -> & Fl). cbn [bind].
  assert (G : forall acc, Forall israt acc -> exists r, foldM (fun acc (t : expr * expr * bool) => add_common fk acc (den_factors (snd (fst t)))) l acc = Ok r).
  { clear F. induction Fl as [|[[m d] h] l [(q & Eq) Hh] Fl IH]; intros acc A; [cbn; eauto|]. cbn [fst snd] in Eq. subst d. cbn [foldM fst snd den_factors].
    destruct (add_common_q acc q A) as (r & -> & Ar). cbn [bind]. now apply IH. }
  destruct (G [] (Forall_nil _)) as (r & ->). cbn [bind].
  assert (X : existsb snd l = false). { clear G r F. induction Fl as [|p l [_ Hh] Fl IH]; auto. cbn [existsb]. now rewrite Hh, IH. }
  now rewrite X.
Qed.
Lemma pass1 t : tpoly t -> let p := fun t => if has_trig t then first_perform [pythagorean fk; pythagorean_complex fk; reciprocate1 fk] t else Ok (Some (t, false)) in
  p t = Ok None \/ p t = Ok (Some (t, false)).
Proof.
  intros T p. subst p. cbv beta. destruct (has_trig t) eqn:Ht; [|now right]. left. destruct T as [T|(ts & -> & L & Fs)].
  - destruct T as [q|x [|q N Z|f i Hf Hi]|q x Z T|q x Z T]; reflexivity.
  - cbn [first_perform]. unfold pythagorean at 1. rewrite Ht. cbn [negb].
    assert (Tp : tpoly (ESum ts)) by (right; eauto).
    rewrite (quiet sq_trig (ESum ts)); auto; [|intros x [| |f i Hf Hi]; try dar Hi; reflexivity]. cbn [negb bind]. unfold pythagorean_complex.
    assert (R : replace_class fk (to_sin_cos fk) (ESum ts) = Ok (ESum ts)).
    { cbn [replace_class]. unfold has_cls. rewrite quiet; auto. intros x [|q N Z|f i [-> | ->] Hi]; try dar Hi; reflexivity. }
    rewrite R. cbn [bind]. rewrite (one_fraction_t ts Fs). reflexivity.
Qed.

(** the second group of rules *)
Lemma comb_t q f i : f = Sin \/ f = Cos -> targ i -> combine_trigs fk (EProd [ERat q; ETrig f i]) = Ok PNone /\ combine_trigs fk (EProd [ETrig f i; ERat q]) = Ok PNone.
Proof.
  intros [-> | ->] Hi; dar Hi; (destruct c as [st fp]; destruct st; split; (vm_compute; reflexivity)).
Qed.
Lemma pts_t d t : tmono t -> pts_unit fk (S d) None t = Ok None.
Proof.
  intros [q|x [|q N Z|f i Hf Hi]|q x Z [|q' N Z'|f i Hf Hi]|q x Z [|q' N Z'|f i Hf Hi]]; try reflexivity; destruct Hf as [-> | ->]; dar Hi; reflexivity.
Qed.
Lemma pass2 d t : tpoly t -> let p := fun t => if has_trig t then first_perform [combine_trigs fk; product_to_sum fk (S d); sectan fk (S d)] t else Ok (Some (t, false)) in
  p t = Ok None \/ p t = Ok (Some (t, false)).
Proof.
  intros T p. subst p. cbv beta. destruct (has_trig t) eqn:Ht; [|now right]. left. destruct T as [T|(ts & -> & L & Fs)].
  - destruct T as [q|x [|q N Z|f i Hf Hi]|q x Z [|q' N Z'|f i Hf Hi]|q x Z [|q' N Z'|f i Hf Hi]]; try reflexivity; try discriminate.
    + cbn [first_perform]. rewrite (proj1 (comb_t q f i Hf Hi)). reflexivity.
    + cbn [first_perform]. rewrite (proj2 (comb_t q f i Hf Hi)). reflexivity.
  - cbn [first_perform]. change (combine_trigs fk (ESum ts)) with (Ok PNone : res pres). cbn [bind]. unfold product_to_sum, list_of.
    assert (G : mapM (pts_unit fk (S d) None) ts = Ok (map (fun _ => None) ts)).
    { clear -Fs Hv. induction Fs as [|t ts T Fs IH]; auto. cbn [mapM map]. rewrite (pts_t d t T). cbn [bind]. now rewrite IH. }
    rewrite G. cbn [bind]. assert (A : forallb (fun r : option (list expr) => match r with None => true | _ => false end) (map (fun _ => None) ts) = true).
    { clear. induction ts; auto. } rewrite A. cbn [bind]. unfold sectan.
    assert (S0 : filter (is_class_squared Sec) ts = []).
    { clear -Fs. induction Fs as [|t ts T Fs IH]; auto. cbn [filter]. assert (E : is_class_squared Sec t = false); [|now rewrite E].
      destruct T as [q|x [|q N Z|f i Hf Hi]|q x Z [|q' N Z'|f i Hf Hi]|q x Z [|q' N Z'|f i Hf Hi]]; reflexivity. }
    rewrite S0. reflexivity.
Qed.

Lemma quiet_arg (g : expr -> res (option (expr * bool))) i : targ i -> (if has_trig i then g i else Ok (Some (i, false))) = Ok (Some (i, false)).
Proof. intros H. dar H; reflexivity. Qed.
(** simplify succeeds, and leaves such a sum in its class *)
Theorem simplify_t d t : tpoly t -> exists r, simplifyE fk (S d) t = Ok r /\ tpoly r.
Proof.
  intros T. unfold simplifyE, expand_if. rewrite (expandable_t t T). cbn [bind].
  assert (NL : forall t, tpoly t -> has_log t = false).
  { intros u U. unfold has_log. apply quiet; auto. intros x [| |f i Hf Hi]; try dar Hi; reflexivity. }
  destruct (has_trig t) eqn:Ht.
  - unfold trig_simplify, kinder_replace_many. destruct (walk_tpoly _ (fun t T => pass1 t T) (quiet_arg _) t T) as (e1 & -> & T1). cbn [bind].
    destruct (walk_tpoly _ (fun t T => pass2 d t T) (quiet_arg _) e1 T1) as (e2 & -> & T2). cbn [bind orb]. rewrite (NL e2 T2). cbn [bind]. destruct (is_simpler e2 t); eauto.
  - cbn [bind]. rewrite (NL t T). cbn [bind]. destruct (is_simpler t t); eauto.
Qed.

End Simplify.
End Cls.
