(** * PropsI: nesting and the choice of the next node (C63, C64, C65), arithmetic with the infinities (C66). *)
From Coquelicot Require Import Coquelicot.
From Verif Require Import Base Expr Kernel Mono Funcs FMono Calc Sem Search SearchMono SearchSound Shape PropsA PropsC PropsE PropsF PropsG.
Close Scope R_scope.
Open Scope nat_scope.
Open Scope list_scope.

(** ** C65 specification: chains of nested subexpressions *)
Definition kids (e : expr) : list expr :=
  match e with
  | ESum ts | EProd ts => ts
  | EPow a b | ELog a b => [a; b]
  | ETrig _ i | EAbs i => [i]
  | _ => []
  end.
(** a reciprocal 1/b counts as b *)
Inductive skip : expr -> expr -> Prop :=
| sk_inv b q : Qeq q (-1) -> skip (EPow b (ERat q)) b
| sk_same e : (forall b q, e = EPow b (ERat q) -> ~ Qeq q (-1)) -> skip e e.
Definition minus_one (e : expr) : Prop := exists q, e = ERat q /\ Qeq q (-1).
(** [Chain v e n]: there is a chain of [n] nested expressions in [e], each one mentioning the variable (any
    expression when [v] is [None]), where -t counts as t and 1/t as t *)
Inductive Chain (v : option string) : expr -> nat -> Prop :=
| ch_none e : Chain v e 0
| ch_sym s : (v = None \/ v = Some s) -> Chain v (ESym s) 1
| ch_neg m t t' n : minus_one m -> skip t t' -> (forall s, v = Some s -> contains s t = true) ->
    Chain v t' n -> Chain v (EProd [m; t]) n
| ch_in e t t' n : (forall m o, e = EProd [m; o] -> ~ minus_one m) -> In t (kids e) -> skip t t' ->
    (forall s, v = Some s -> contains s e = true) -> Chain v t' n -> Chain v e (S n).

Definition skf (t : expr) : expr := match t with EPow b x => if isq x (-1) then b else t | _ => t end.
Lemma skf_spec t : skip t (skf t).
Proof.
  destruct t; cbn [skf]; try (apply sk_same; intros; discriminate).
  destruct (isq t2 (-1)) eqn:E.
  - destruct t2; try discriminate. apply sk_inv. now apply Qeq_bool_eq.
  - apply sk_same. intros b q H. injection H as -> ->. intros X. cbn in E. apply Qeq_eq_bool in X. congruence.
Qed.
Lemma skip_skf t t' : skip t t' -> t' = skf t.
Proof.
  intros [b q H|e H]; cbn [skf].
  - cbn [isq]. apply Qeq_eq_bool in H. now rewrite H.
  - destruct e; auto. cbn [skf]. destruct (isq e2 (-1)) eqn:E; auto. destruct e2; try discriminate.
    apply Qeq_bool_eq in E. destruct (H _ _ eq_refl E).
Qed.
Lemma minus_one_dec e : {minus_one e} + {~ minus_one e}.
Proof.
  destruct e; try (right; intros (q' & H & _); discriminate).
  destruct (Qeq_dec q (-1)); [left; now exists q|right]. intros (q' & H & X). injection H as ->. auto.
Qed.
Lemma isq_minus_one e : isq e (-1) = true <-> minus_one e.
Proof.
  split.
  - destruct e; try discriminate. intros H. exists q. split; auto. now apply Qeq_bool_eq.
  - intros (q & -> & H). now apply Qeq_eq_bool.
Qed.
Definition nst v t := nesting v (skf t).
Definition vin (v : option string) (e : expr) : bool := match v with Some s => contains s e | None => true end.
Lemma vin_spec v e : vin v e = true <-> forall s, v = Some s -> contains s e = true.
Proof. destruct v as [s|]; cbn; split; auto; try congruence; intros; discriminate. Qed.

(** the definition, one level at a time *)
Lemma nesting_eq v e : nesting v e =
  if negb (vin v e) then 0 else
  match e with
  | EProd [t; o] => if isq t (-1) then nst v o else S (fold_right (fun t r => Nat.max (nst v t) r) 0 [t; o])
  | ESym _ => 1
  | ESum _ | EProd _ | EPow _ _ | ELog _ _ | ETrig _ _ | EAbs _ => S (fold_right (fun t r => Nat.max (nst v t) r) 0 (kids e))
  | _ => 0
  end.
Proof.
  assert (SK : forall t, (match t with EPow b x => if isq x (-1) then nesting v b else nesting v t | _ => nesting v t end) = nst v t).
  { intros t. unfold nst, skf. destruct t; auto. now destruct (isq t2 (-1)). }
  assert (MX : forall ts, fold_right (fun t r => Nat.max (match t with EPow b x => if isq x (-1) then nesting v b else nesting v t | _ => nesting v t end) r) 0 ts
     = fold_right (fun t r => Nat.max (nst v t) r) 0 ts).
  { induction ts as [|t ts IH]; cbn [fold_right]; auto. }
  destruct e as [q| | | | |s| |ts|ts|b x|i b|f i|i]; cbn [nesting]; rewrite ?SK, ?MX; unfold vin; destruct v as [s0|]; cbn [kids fold_right negb]; rewrite ?Nat.max_0_r; auto.
  all: try (destruct (negb _); [reflexivity|]); destruct ts as [|t [|o [|z r]]]; auto; rewrite ?SK, ?MX; cbn [fold_right]; rewrite ?Nat.max_0_r; auto.
Qed.

Fixpoint esize (e : expr) : nat :=
  match e with
  | ESum ts | EProd ts => S (fold_right (fun t r => esize t + r) 0 ts)
  | EPow a b | ELog a b => S (esize a + esize b)
  | ETrig _ i | EAbs i => S (esize i)
  | _ => 1
  end.
Lemma esize_skf t : esize (skf t) <= esize t.
Proof. destruct t; auto. cbn [skf]. destruct (isq _ _); cbn [esize]; lia. Qed.
Lemma esize_kid t e : In t (kids e) -> esize t < esize e.
Proof.
  assert (L : forall ts, In t ts -> esize t <= fold_right (fun t r => esize t + r) 0 ts).
  { induction ts as [|u ts IH]; intros []; cbn [fold_right]; [subst; lia|]. specialize (IH H). lia. }
  destruct e; cbn [kids esize]; intros H; try (apply L in H; lia); cbn [In] in H;
    repeat match goal with H : _ \/ _ |- _ => destruct H as [H|H] | H : False |- _ => destruct H end; subst; lia.
Qed.
Lemma maxl_ge v ts t : In t ts -> nst v t <= fold_right (fun t r => Nat.max (nst v t) r) 0 ts.
Proof. induction ts as [|u ts IH]; intros []; cbn [fold_right]; [subst; lia|]. specialize (IH H). lia. Qed.
Lemma maxl_at v ts : ts <> [] -> exists t, In t ts /\ fold_right (fun t r => Nat.max (nst v t) r) 0 ts = nst v t.
Proof.
  induction ts as [|u ts IH]; intros H; [congruence|]. destruct ts as [|w ts].
  - exists u. cbn [fold_right]. rewrite Nat.max_0_r. split; [now left|reflexivity].
  - destruct IH as (t & Ht & E); [congruence|]. cbn [fold_right] in *. rewrite E.
    destruct (Nat.max_spec (nst v u) (nst v t)) as [[_ ->]|[_ ->]]; [exists t; split; auto; now right|exists u; split; auto; now left].
Qed.

(** nesting(e, v) is the length of the longest chain (for expressions without empty sums and products, the only
    ones the library builds) *)
Fixpoint no_empty (e : expr) : Prop :=
  match e with
  | ESum ts | EProd ts => ts <> [] /\ fold_right (fun t r => no_empty t /\ r) True ts
  | EPow a b | ELog a b => no_empty a /\ no_empty b
  | ETrig _ i | EAbs i => no_empty i
  | _ => True
  end.
Lemma no_empty_kid t e : no_empty e -> In t (kids e) -> no_empty (skf t).
Proof.
  assert (S0 : no_empty t -> no_empty (skf t)).
  { destruct t; auto. cbn [skf no_empty]. intros [A B]. destruct (isq _ _); auto. now split. }
  assert (L : forall ts, fold_right (fun t r => no_empty t /\ r) True ts -> In t ts -> no_empty t).
  { induction ts as [|u ts IH]; intros H []; cbn [fold_right] in H; [subst; tauto|]. apply IH; tauto. }
  intros H I. apply S0. destruct e; cbn [kids no_empty] in *; try (destruct H as [_ H]; eapply L; eauto; fail); cbn [In] in I;
    repeat match goal with H : _ \/ _ |- _ => destruct H as [H|H] | H : False |- _ => destruct H end; subst; tauto.
Qed.
Theorem c65_nesting v e : no_empty e ->
  Chain v e (nesting v e) /\ forall n, Chain v e n -> n <= nesting v e.
Proof.
  remember (esize e) as m eqn:Em. revert e Em. induction m as [m IH] using lt_wf_ind. intros e -> NE.
  assert (IHk : forall t, In t (kids e) -> Chain v (skf t) (nst v t) /\ forall n, Chain v (skf t) n -> n <= nst v t).
  { intros t Ht. pose proof (esize_kid _ _ Ht). pose proof (esize_skf t). apply (IH (esize (skf t))); auto; [lia|]. eapply no_empty_kid; eauto. }
  rewrite nesting_eq. destruct (vin v e) eqn:Ev; cbn [negb].
  2:{ split; [apply ch_none|]. assert (NV : ~ forall s, v = Some s -> contains s e = true).
      { intros H. pose proof (proj2 (vin_spec v e) H). congruence. }
      intros n H. destruct H as [|s Hs|mm t t' n Hm Hsk Hc H|e t t' n Hn Hi Hsk Hc H]; auto; exfalso; apply NV; auto.
      - intros s' E. destruct Hs as [Hs|Hs]; [congruence|]. rewrite Hs in E. injection E as <-. cbn. apply String.eqb_refl.
      - intros s' E. specialize (Hc s' E). cbn. rewrite Hc. now rewrite orb_true_r. }
  pose proof (proj1 (vin_spec v e) Ev) as Ev0. clear Ev. rename Ev0 into Ev.
  assert (GEN : (forall m o, e = EProd [m; o] -> ~ minus_one m) -> kids e <> [] ->
     Chain v e (S (fold_right (fun t r => Nat.max (nst v t) r) 0 (kids e))) /\
     forall n, Chain v e n -> n <= S (fold_right (fun t r => Nat.max (nst v t) r) 0 (kids e))).
  { intros HN HK. split.
    - destruct (maxl_at v (kids e) HK) as (t & Ht & ->). eapply ch_in; eauto using skf_spec. now apply IHk.
    - intros n H. destruct H as [|s Hs|mm t t' n Hm Hsk Hc H|e t t' n Hn Hi Hsk Hc H]; try lia.
      + destruct (HN _ _ eq_refl Hm).
      + apply skip_skf in Hsk. subst t'. apply (IHk t Hi) in H. pose proof (maxl_ge v _ _ Hi). lia. }
  assert (LEAF : kids e = [] -> forall n, Chain v e n -> n <= match e with ESym _ => 1 | _ => 0 end).
  { intros HK n H. destruct H as [|s Hs|mm t t' n Hm Hsk Hc H|e t t' n Hn Hi Hsk Hc H]; cbn [kids] in *; try lia; try discriminate.
    rewrite HK in Hi. destruct Hi. }
  destruct e as [q| | | | |s| |ts|ts|b x|i b|f i|i]; try (split; [apply ch_none|apply LEAF; reflexivity]); try (apply GEN; cbn [kids]; [intros; discriminate|discriminate]).
  - split; [|apply LEAF; reflexivity]. apply ch_sym. destruct v as [s'|]; auto. right. specialize (Ev s' eq_refl). cbn in Ev.
    apply String.eqb_eq in Ev. now subst.
  - apply GEN; cbn [kids]; [intros; discriminate|]. now destruct NE.
  - destruct ts as [|t [|o [|z r]]]; try (apply GEN; cbn [kids]; [intros ? ? E; discriminate E|discriminate]).
    + destruct NE. congruence.
    + destruct (isq t (-1)) eqn:E.
      * apply isq_minus_one in E. assert (Ho : In o (kids (EProd [t; o]))) by (cbn; auto). destruct (IHk o Ho) as [A B]. split.
        -- eapply ch_neg; eauto using skf_spec. intros s' E'. specialize (Ev s' E'). cbn in Ev. destruct E as (q & -> & _).
           cbn in Ev. now rewrite orb_false_r in Ev.
        -- intros n H. inversion H as [|s Hs|mm t1 t' n' Hm Hsk Hc H1|e1 t1 t' n' Hn Hi Hsk Hc H1]; subst; try lia.
           ++ apply skip_skf in Hsk. subst. auto.
           ++ destruct (Hn _ _ eq_refl E).
      * apply GEN; cbn [kids]; [|discriminate]. intros m o' H Hm. injection H as <- <-. apply isq_minus_one in Hm. congruence.
Qed.
(** As called by a user: that number, except that nesting(inf) and nesting(-inf) raise TypeError. *)
Theorem c65_call v e k : no_empty e -> e <> EInf -> e <> ENegInf ->
  (nestingc v e = Ok k <-> Chain v e k /\ forall n, Chain v e n -> n <= k).
Proof.
  intros N I J. rewrite nestingc_fin by auto. destruct (c65_nesting v e N) as [C M]. split.
  - intros H. injection H as <-. auto.
  - intros [C' M']. f_equal. apply Nat.le_antisymm; auto.
Qed.
Theorem c65_infinity_refuted v : nestingc v EInf = Raise TypeError /\ nestingc v ENegInf = Raise TypeError.
Proof. split; reflexivity. Qed.
(** the docstring's examples, and one where -1 and 1/. are transparent *)
Example c65_ex : let x := ESym "x" in let y := ESym "y" in
  nesting (Some "x"%string) (EPow x (ERat 2)) = 2 /\
  nesting (Some "x"%string) (EProd [x; EPow y (ERat 2)]) = 2 /\
  nesting None (EProd [x; EPow y (ERat 2)]) = 3 /\
  nesting (Some "x"%string) (EProd [ERat (-1); EPow (ETrig Sin x) (ERat (-1))]) = 2 /\
  no_empty (EProd [ERat (-1); EPow (ETrig Sin x) (ERat (-1))]).
Proof. repeat split; discriminate. Qed.

(** ** C64: which node a depth-first cycle continues with *)
(** [LastTr h i t]: [t] is the transform of [i] or of the nearest node above it, not counting expansion, pulled
    constants and splitting a sum *)
Definition minor (t : tr) : Prop := (exists c, t = TPull c) \/ t = TAdd \/ t = TId IExpand.
Inductive LastTr (h : heap) : nat -> tr -> Prop :=
| lt_here i q t : nth_error h i = Some q -> nd_t q = Some t -> ~ minor t -> LastTr h i t
| lt_up i q t p u : nth_error h i = Some q -> nd_t q = Some t -> minor t -> nd_p q = Some p -> LastTr h p u -> LastTr h i u.
Lemma ex_pae_minor t : ex_pae t = true <-> minor t.
Proof.
  unfold minor. destruct t as [| | |k]; cbn; [..|destruct k; cbn];
    (split; [intros H; try discriminate; eauto|intros [[? H]|[H|H]]; try discriminate; reflexivity]).
Qed.
Section Choice.
Context (h : heap) (T : Tree h).
Lemma last_tr_spec i t : i < List.length h -> last_tr ex_pae h i = Some t <-> LastTr h i t.
Proof.
  intros Hi. unfold last_tr.
  assert (G : forall f i, i < f -> last_tr_go f ex_pae h i = Some t <-> LastTr h i t).
  { induction f as [|f IH]; intros j Hj; [lia|]. cbn [last_tr_go]. destruct (nth_error h j) as [q|] eqn:Hq.
    2:{ split; [discriminate|]. intros H; destruct H; congruence. }
    destruct (nd_t q) as [u|] eqn:Hu.
    2:{ split; [discriminate|]. intros H; destruct H; congruence. }
    destruct (ex_pae u) eqn:E.
    - apply ex_pae_minor in E. destruct (nd_p q) as [p|] eqn:Hp.
      + destruct (T _ _ Hq) as (_ & _ & X). rewrite Hp in X. rewrite IH by lia. split.
        * intros H. eapply lt_up; eauto.
        * intros H. destruct H; congruence.
      + split; [discriminate|]. intros H; destruct H; congruence.
    - assert (~ minor u) by (rewrite <- ex_pae_minor; congruence). split.
      + intros H0. injection H0 as <-. eapply lt_here; eauto.
      + intros H0. destruct H0; congruence. }
  apply G. lia.
Qed.
(** An unfinished leaf under [i] with the least nesting is taken; unless it is nested 7 deep or comes from
    integration by parts: then the breadth-first choice is taken.  (No unfinished leaf is a bare infinity.) *)
Theorem c64_choice k i ul : i < List.length h -> unfinished_leaves h i = Ok ul -> ul <> [] -> (forall j, In j ul -> finite_at h j) ->
  exists a q, In a ul /\ nth_error h a = Some q /\ (forall b, In b ul -> nest h a <= nest h b) /\
    ((7 <= nesting None (nd_e q) \/ LastTr h a (TId IByParts)) -> next_df (S k) h i = (j <- next_bf h;; Ok (NNode j))) /\
    (nesting None (nd_e q) < 7 -> ~ LastTr h a (TId IByParts) -> next_df (S k) h i = Ok (NNode a)).
Proof.
  intros Hi Hu NE FA. cbn [next_df]. rewrite Hu. cbn [bind]. destruct (c35_unfinished_leaves h T i Hi) as (ul' & Hu' & E).
  rewrite Hu in Hu'. injection Hu' as <-.
  assert (UA : forall j, In j ul -> j < List.length h).
  { intros j Hj. apply E in Hj as (A & _). eapply below_lt; eauto. }
  assert (CH : exists a, In a ul /\ (forall b, In b ul -> nest h a <= nest h b) /\
     (match ul with [j] => Ok j | _ => best_nesting true h ul end) = Ok a).
  { destruct (c63_best_nesting h true ul NE UA FA) as (a & H1 & H2 & H3). destruct ul as [|u [|w ul]]; [congruence| |eauto].
    exists u. split; [now left|]. split; auto. intros b [<-|[]]. lia. }
  destruct CH as (a & Ia & Ma & Ha). destruct (node_at h a (UA a Ia)) as [q Hq]. exists a, q.
  assert (NC : nestingc None (nd_e q) = Ok (nesting None (nd_e q))) by (apply nestingc_fin; specialize (FA a Ia); unfold finite_at in FA; now rewrite Hq in FA).
  splits; auto.
  - destruct ul as [|u ul]; [congruence|]. rewrite Ha. cbn [bind]. unfold df_bad. rewrite (get_some _ _ _ Hq). cbn [bind]. rewrite NC. cbn [bind].
    intros B. replace (_ || _) with true; [reflexivity|]. symmetry. apply orb_true_iff. destruct B as [B|B].
    + left. now apply Nat.leb_le.
    + right. apply last_tr_spec in B; auto. now rewrite B.
  - destruct ul as [|u ul]; [congruence|]. rewrite Ha. cbn [bind]. unfold df_bad. rewrite (get_some _ _ _ Hq). cbn [bind]. rewrite NC. cbn [bind].
    intros B1 B2. replace (_ || _) with false; [reflexivity|]. symmetry. apply orb_false_iff. split.
    + now apply Nat.leb_gt.
    + destruct (is_id IByParts (last_tr ex_pae h a)) eqn:X; auto. exfalso. apply B2. apply last_tr_spec; auto.
      destruct (last_tr ex_pae h a) as [[| | |kk]|]; try discriminate. destruct kk; try discriminate. reflexivity.
Qed.
End Choice.

(** a search tree with two unfinished leaves where the depth-first choice is made (x^2 sin x + x e^(x^2)) *)
Example c64_choice_ex : exists s ul, safely plf (fun _ _ => true) unm 40 40 ([mkroot (ESum [EProd [EPow sx (ERat 2); ETrig Sin sx]; EProd [sx; EPow EE (EPow sx (ERat 2))]]) "x"], 0) 0 = Ok s /\
  Tree (fst s) /\ unfinished_leaves (fst s) 0 = Ok ul /\ 2 <= List.length ul /\ 0 < List.length (fst s).
Proof.
  destruct (safely plf (fun _ _ => true) unm 40 40 ([mkroot (ESum [EProd [EPow sx (ERat 2); ETrig Sin sx]; EProd [sx; EPow EE (EPow sx (ERat 2))]]) "x"], 0) 0) as [s| |] eqn:E;
    [|vm_compute in E; discriminate|vm_compute in E; discriminate].
  exists s. eexists. split; [reflexivity|]. split; [eapply Tree_grow; [eapply safely_grow; exact E|apply Tree_root]|].
  vm_compute in E. injection E as <-. split; [vm_compute; reflexivity|]. split; cbn; lia.
Qed.

(** ** C66: arithmetic of numbers and infinities is that of the extended reals *)
(** Coquelicot's [Rbar]: [is_Rbar_plus x y z] does not hold for inf + -inf, nor [is_Rbar_mult] for 0 * inf *)
Definition ext (e : expr) : option Rbar :=
  match e with ERat q => Some (Finite (Q2R q)) | EInf => Some p_infty | ENegInf => Some m_infty | _ => None end.
Definition agrees (r : res expr) (R : Rbar -> Prop) : Prop :=
  (forall e, r = Ok e -> exists z, ext e = Some z /\ R z) /\ ((exists z, R z) -> exists e, r = Ok e).
Ltac ext_cases a b := destruct a, b; try discriminate.
Lemma Q2R_rat q : ext (rat q) = Some (Finite (Q2R q)).
Proof. unfold rat. cbn. do 2 f_equal. apply Qreals.Qeq_eqR. apply Qred_correct. Qed.
Lemma sgn_Q q : match Z.sgn (Qnum q) with Z0 => Q2R q = 0%R | Zpos _ => (0 < Q2R q)%R | Zneg _ => (Q2R q < 0)%R end.
Proof.
  destruct q as [p d]. unfold Q2R. cbn [Qnum Qden]. assert (D : (0 < / IZR (Zpos d))%R) by (apply Rinv_0_lt_compat; now apply IZR_lt).
  destruct p; cbn; [ring| |].
  - apply Rmult_lt_0_compat; auto. now apply IZR_lt.
  - apply Ropp_lt_cancel. rewrite Ropp_0, <- Ropp_mult_distr_l_reverse. apply Rmult_lt_0_compat; auto.
    rewrite <- opp_IZR. now apply IZR_lt.
Qed.
Theorem c66_add c n a b x y : ext a = Some x -> ext b = Some y ->
  agrees (op_add (K c (S (S n))) a b) (is_Rbar_plus x y).
Proof.
  intros Hx Hy. ext_cases a b; injection Hx as <-; injection Hy as <-; unfold agrees.
  1:{ cbn [op_add]. split; [|eauto]. intros e H. injection H as <-. eexists. split; [apply Q2R_rat|]. rewrite Qreals.Q2R_plus. reflexivity. }
  all: split; [intros e H; (injection H as <- || discriminate H); eexists; split; reflexivity|intros [z Hz]; (discriminate Hz || (eexists; reflexivity))].
Qed.
Lemma sgn3 z : Z.sgn z = 0%Z \/ Z.sgn z = 1%Z \/ Z.sgn z = (-1)%Z.
Proof. destruct z; cbn; auto. Qed.
Lemma sgn_red q : Z.sgn (Qnum (Qred q)) = Z.sgn (Qnum q).
Proof.
  pose proof (sgn_Q q) as A. pose proof (sgn_Q (Qred q)) as B. rewrite (Qreals.Qeq_eqR _ _ (Qred_correct q)) in B.
  destruct (sgn3 (Qnum q)) as [E|[E|E]], (sgn3 (Qnum (Qred q))) as [F|[F|F]]; rewrite E in *; rewrite F in *; auto; lra.
Qed.
Theorem c66_mul c n a b x y : ext a = Some x -> ext b = Some y ->
  agrees (op_mul (K c (S (S n))) a b) (is_Rbar_mult x y).
Proof.
  intros Hx Hy.
  assert (QI : forall q, k_prod (K c (S (S n))) [ERat q; EInf] = val_mul (ERat q) EInf /\ k_prod (K c (S (S n))) [EInf; ERat q] = val_mul (ERat q) EInf /\
       k_prod (K c (S (S n))) [ERat q; ENegInf] = val_mul (ERat q) ENegInf /\ k_prod (K c (S (S n))) [ENegInf; ERat q] = val_mul (ERat q) ENegInf).
  { intros q. cbn [K build k_prod]. unfold prod_body. cbn [flat_prod]. unfold combine_prod. cbn. unfold acc_prod, py_eq. cbn [coin eeqb andb]. rewrite ?andb_false_r. cbn.
    assert (E : Z.sgn (Qnum (Qred (1 * q))) = Z.sgn (Qnum q)).
    { rewrite sgn_red. destruct q as [p d]. cbn. destruct p; reflexivity. }
    unfold rat. cbn [val_sign]. rewrite ?E. clear E.
    destruct (sgn3 (Qnum q)) as [E|[E|E]]; rewrite E; cbn; repeat split. }
  assert (QJ : forall a b, In a [EInf; ENegInf] -> In b [EInf; ENegInf] -> k_prod (K c (S (S n))) [a; b] = val_mul a b).
  { intros a' b' [<-|[<-|[]]] [<-|[<-|[]]]; cbn [K build k_prod]; unfold prod_body; cbn [flat_prod]; unfold combine_prod; cbn;
    unfold acc_prod, py_eq; cbn [coin eeqb andb]; rewrite ?andb_false_r; reflexivity. }
  pose proof sgn_Q as SQ. 
  ext_cases a b; injection Hx as <-; injection Hy as <-; unfold agrees.
  1:{ cbn [op_mul]. split; [|eauto]. intros e H. injection H as <-. eexists. split; [apply Q2R_rat|]. rewrite Qreals.Q2R_mult. reflexivity. }
  all: try (split; [intros rr H; (injection H as <- || discriminate H); eexists; split; reflexivity|intros [z Hz]; (discriminate Hz || (eexists; reflexivity))]; fail).
  all: try (cbn [op_mul]; rewrite QJ by (cbn; auto);
    split; [intros rr H; (injection H as <- || discriminate H); eexists; split; reflexivity|intros [z Hz]; (discriminate Hz || (eexists; reflexivity))]; fail).
  all: destruct (QI q) as (Q1 & Q2 & Q3 & Q4); cbn [op_mul]; rewrite ?Q1, ?Q2, ?Q3, ?Q4; cbn [val_mul val_sign]; specialize (SQ q);
    destruct (sgn3 (Qnum q)) as [E|[E|E]]; rewrite E in *; cbn [Z.mul Z.opp].
  all: unfold is_Rbar_mult, Rbar_mult'; destruct (Rle_dec 0 (Q2R q)) as [L|L]; [destruct (Rle_lt_or_eq_dec 0 (Q2R q) L)|]; try lra.
  all: split; [intros rr H; (injection H as <- || discriminate H); eexists; split; reflexivity|intros [z Hz]; (discriminate Hz || (eexists; reflexivity))].
Qed.
Lemma mul_neg1 c n b y : ext b = Some y -> exists m, op_mul (K c (S (S n))) (ERat (-1)) b = Ok m /\ ext m = Some (Rbar_opp y).
Proof.
  intros Hb. destruct (c66_mul c n (ERat (-1)) b (Finite (Q2R (-1))) y eq_refl Hb) as [H1 H2].
  assert (M1 : Q2R (-1) = (-1)%R) by (unfold Q2R; cbn; lra). rewrite M1 in *.
  assert (HZ : forall z, is_Rbar_mult (Finite (-1)) y z <-> z = Rbar_opp y).
  { intros z. unfold is_Rbar_mult. destruct y as [r| |]; cbn [Rbar_mult' Rbar_opp].
    - replace (-1 * r)%R with (- r)%R by lra. split; [intros H; now injection H as <-|intros ->; reflexivity].
    - destruct (Rle_dec 0 (-1)); [exfalso; lra|]. split; [intros H; now injection H as <-|intros ->; reflexivity].
    - destruct (Rle_dec 0 (-1)); [exfalso; lra|]. split; [intros H; now injection H as <-|intros ->; reflexivity]. }
  destruct H2 as [m Hm]; [exists (Rbar_opp y); now apply HZ|]. exists m. split; auto.
  destruct (H1 m Hm) as (z & E & Z). apply HZ in Z. now subst.
Qed.
Theorem c66_neg k a x : ext a = Some x -> exists m, op_neg k a = Ok m /\ ext m = Some (Rbar_opp x).
Proof.
  intros Ha. destruct a; try discriminate; injection Ha as <-; cbn [op_neg]; eexists; (split; [reflexivity|]); auto.
  rewrite Q2R_rat, Qreals.Q2R_opp. reflexivity.
Qed.
Theorem c66_abs k a x : ext a = Some x -> exists m, op_abs k a = Ok m /\ ext m = Some (Rbar_abs x).
Proof.
  intros Ha. destruct a; try discriminate; injection Ha as <-; cbn [op_abs]; eexists; (split; [reflexivity|]); auto.
  rewrite Q2R_rat. cbn [Rbar_abs]. do 2 f_equal. apply Qabs_case; intros H.
  - symmetry. apply Rabs_right. apply Rle_ge. apply Qreals.Qle_Rle in H. now rewrite RMicromega.Q2R_0 in H.
  - rewrite Qreals.Q2R_opp. symmetry. apply Rabs_left1. apply Qreals.Qle_Rle in H. now rewrite RMicromega.Q2R_0 in H.
Qed.
Theorem c66_sub c n a b x y : ext a = Some x -> ext b = Some y ->
  agrees (op_sub (K c (S (S n))) a b) (is_Rbar_plus x (Rbar_opp y)).
Proof.
  intros Hx Hy.
  assert (G : op_sub (K c (S (S n))) a b = (m <- op_mul (K c (S (S n))) (ERat (-1)) b;; op_add (K c (S (S n))) a m) ->
     agrees (op_sub (K c (S (S n))) a b) (is_Rbar_plus x (Rbar_opp y))).
  { intros ->. destruct (mul_neg1 c n b y Hy) as (m & -> & Hm). cbn [bind]. now apply c66_add. }
  ext_cases a b; try (apply G; reflexivity). injection Hx as <-. injection Hy as <-. split; [|intros _; eexists; reflexivity].
  intros e H. injection H as <-. eexists. split; [apply Q2R_rat|]. rewrite Qreals.Q2R_minus. reflexivity.
Qed.
(** inf - inf and 0 * inf are not numbers: Python produces a float NaN, which the model stops at *)
Example c66_ex : let k := K exact_cfg 5 in op_add k EInf (ERat (-3)) = Ok EInf /\ op_mul k (ERat (-1 # 2)) EInf = Ok ENegInf /\
  op_sub k EInf EInf = Stop Unmodelled /\ op_mul k (ERat 0) EInf = Stop Unmodelled /\
  op_sub k EInf ENegInf = Ok EInf.
Proof. vm_compute. repeat split. Qed.
