(** * PropsC: diff, subs, expand, factor, combinatorics, trig, log, replacement and queries
    (C11-C22, C37-C39, C45).

    Reading guide, continuing PropsA.v.  The functions of the library are parameterised by the
    constructors they call.  [PF c m] is the plain code (recursion bound [m]).  [GF dom c n] is the
    same code run with a monitor: it stops (returns nothing) when it compares pi or e with the
    rational of the same binary64 value, when it asks for a power, logarithm, trig value or the
    derivative of an absolute value that the oracle [dom] does not accept, or when it
    differentiates or expands a logarithm to a base other than e.  Every theorem says: if the
    monitored run completes, the plain run gives the very same result, and that result is right at
    each assignment [rho] at which all nodes accepted by [dom] are defined ([right_at rho dom]). *)
From Coquelicot Require Import Coquelicot.
From Verif Require Import Base Expr Kernel Mono Funcs FMono Calc Sem RealLemmas Sound SoundPow Atoms Agree Oracle
  FSound CalcSound Combi Expand ExpandSound Factor Regex PropsA.
From Coq Require Lqa.
Local Open Scope R_scope.

Definition GF (dom : expr -> bool) (c : cfg) (n : nat) : fkern := F dom (strictly c) n.
Definition PF (c : cfg) (m : nat) : fkern := F nodom (faithful c) m.
Definition right_at (rho : env) (dom : expr -> bool) : Prop := forall t, dom t = true -> node_ok rho t.

Lemma GF_le dom c n m : (n <= m)%nat -> fle (GF dom c n) (PF c m).
Proof. intros H. apply F_mono; auto using dom_le_nodom. split; simpl; auto. Qed.
Lemma GF_sound dom c n rho : fpow_exact (fpow c) -> right_at rho dom -> FSound rho (GF dom c n).
Proof. intros H R. now apply F_sound. Qed.

Section Main.
Context (c : cfg) (HX : fpow_exact (fpow c)) (dom : expr -> bool) (n m : nat) (Hn : (n <= m)%nat).
Notation gf := (GF dom c n).
Notation pf := (PF c m).
Let L : fle gf pf := GF_le dom c n m Hn.
Let S rho : right_at rho dom -> FSound rho gf := GF_sound dom c n rho HX.

(** ** C11: diff *)
Theorem c11_diff d rho v a b e e' :
  (forall t, a < t < b -> right_at (upd rho v t) dom) ->
  (forall t, a < t < b -> wd (upd rho v t) e) ->
  diffE gf d v e = Ok e' ->
  diffE pf d v e = Ok e' /\
  forall t, a < t < b -> wd (upd rho v t) e' /\
    is_derive (fun s => ev (upd rho v s) e) t (ev (upd rho v t) e').
Proof.
  intros R W H. split.
  - eapply rle_ok; [apply diffE_mono; [exact L|reflexivity]|exact H].
  - apply (diffE_sound gf rho v a b (fun t Ht => S _ (R t Ht)) d e e' H W).
Qed.

(** ** C14: subs *)
Theorem c14_subs rho s e e' : right_at rho dom ->
  (forall x r, assoc x s = Some r -> wd rho r) -> finite e = true ->
  subs gf s e = Ok e' ->
  subs pf s e = Ok e' /\ wd rho e' /\ ev rho e' = ev (upds rho s) e.
Proof.
  intros R W Fe H. split.
  - eapply rle_ok; [apply subs_mono; exact L|exact H].
  - eapply (subs_sound rho gf (S _ R)); eauto.
Qed.

(** ** C15: expand *)
Theorem c15_expand d rho e e' : right_at rho dom -> wd rho e ->
  expandE gf d e = Ok e' ->
  expandE pf d e = Ok e' /\ wd rho e' /\ ev rho e' = ev rho e.
Proof.
  intros R W H. split.
  - eapply rle_ok; [apply expandE_mono; [exact L|reflexivity]|exact H].
  - eapply (expandE_sound rho gf (S _ R)); eauto.
Qed.

(** ** C45: factor *)
Theorem c45_factor rho ts e : right_at rho dom -> wd rho (ESum ts) ->
  factorE gf ts = Ok e ->
  factorE pf ts = Ok e /\ wd rho e /\ ev rho e = ev rho (ESum ts).
Proof.
  intros R W H. split.
  - eapply rle_ok; [apply factorE_mono; exact L|exact H].
  - eapply (factorE_sound rho gf (S _ R)); eauto.
Qed.

(** ** C18, C19: the trig constructors; [tdom] says the function is defined at the value *)
Theorem c19_trig rho f i e : right_at rho dom -> wd rho i ->
  k_trig gf f i = Ok e ->
  k_trig pf f i = Ok e /\ tdom f (ev rho i) /\ wd rho e /\ ev rho e = tev f (ev rho i).
Proof.
  intros R W H. split.
  - eapply rle_ok; [apply L|exact H].
  - eapply (f_trig _ _ (S _ R)); eauto.
Qed.

(** ** C22: the log constructor *)
Theorem c22_log rho i b e : right_at rho dom -> wd rho i -> wd rho b ->
  k_log gf i b = Ok e ->
  k_log pf i b = Ok e /\ wd rho e /\ ev rho e = ln (ev rho i) / ln (ev rho b).
Proof.
  intros R Wi Wb H. split.
  - eapply rle_ok; [apply L|exact H].
  - eapply (f_log _ _ (S _ R)); eauto.
Qed.

(** ** C38: replace *)
Theorem c38_replace_equal rho e old new e' : right_at rho dom -> wd rho e -> wd rho new ->
  ev rho new = ev rho old ->
  replaceE gf e old new = Ok e' ->
  replaceE pf e old new = Ok e' /\ wd rho e' /\ ev rho e' = ev rho e.
Proof.
  intros R We Wn E H. split.
  - eapply rle_ok; [apply replaceE_mono; exact L|exact H].
  - eapply (replaceE_sound rho gf (S _ R)); eauto.
Qed.
Theorem c38_replace_var rho v e u e' : right_at rho dom ->
  wd (upd rho v (ev rho u)) e -> wd rho u ->
  replaceE gf e (ESym v) u = Ok e' ->
  replaceE pf e (ESym v) u = Ok e' /\ wd rho e' /\ ev rho e' = ev (upd rho v (ev rho u)) e.
Proof.
  intros R We Wu H. split.
  - eapply rle_ok; [apply replaceE_mono; exact L|exact H].
  - eapply (replaceE_sound2 _ rho gf (S _ R)); eauto.
    + simpl. symmetry. apply upd_eq.
    + intros s Hs. unfold upd. destruct (String.eqb_spec s v); auto. subst.
      simpl in Hs. unfold py_eq in Hs. simpl in Hs. rewrite String.eqb_refl in Hs. discriminate.
Qed.
End Main.

(** *** Instances *)
Definition rx (r : R) : env := fun _ => r.

(** Powers of x and of positive multiples of x, and log x, are accepted: right wherever x > 0. *)
Definition pos_x (t : expr) : bool :=
  match t with
  | ESym s => String.eqb s "x"
  | EProd [ERat q; ESym s] => String.eqb s "x" && qgt0 q
  | _ => false
  end.
Definition dom_x (t : expr) : bool :=
  match t with
  | EPow b _ => pos_x b
  | ELog i EE => pos_x i
  | _ => false
  end.
Lemma exp1_ne1 : exp 1 <> 1.
Proof. pose proof (exp_ineq1 1). lra. Qed.
Lemma pos_x_rp rho t : 0 < rho "x"%string -> pos_x t = true -> rp rho t.
Proof.
  intros H Ht. destruct t as [| | | | |s| | |ts| | | |]; try discriminate.
  - apply String.eqb_eq in Ht as ->. apply rp_unfold; simpl; auto.
  - simpl in Ht. destruct ts as [|[] [|[] []]]; try discriminate. apply andb_prop in Ht as [Ht Hq].
    apply String.eqb_eq in Ht as ->. apply qgt0_true in Hq. apply rp_unfold. split.
    + simpl. nra.
    + right. repeat constructor; auto.
Qed.
Lemma dom_x_right rho : 0 < rho "x"%string -> right_at rho dom_x.
Proof.
  intros H t Ht. destruct t; try discriminate; simpl in Ht.
  - right. now apply pos_x_rp.
  - destruct t2; try discriminate. split; [now apply pos_x_rp|]. split; [apply exp_pos|apply exp1_ne1].
Qed.

(** d/dx (x^3 sin x + log x) on (0, 7). *)
Example c11_ex :
  let e := ESum [EProd [EPow sx (ERat 3); ETrig Sin sx]; ELog sx EE] in
  exists e', diffE (GF dom_x exact_cfg 9) 9 "x" e = Ok e' /\
  (forall t, 0 < t < 7 -> right_at (upd (rx 0) "x" t) dom_x) /\
  (forall t, 0 < t < 7 -> wd (upd (rx 0) "x" t) e).
Proof.
  eexists. split; [vm_compute; reflexivity|]. split.
  - intros t Ht. apply dom_x_right. simpl. unfold upd; simpl. lra.
  - intros t Ht.
    assert (P : rp (upd (rx 0) "x" t) sx) by (apply rp_unfold; simpl; unfold upd; simpl; split; auto; lra).
    simpl. repeat split; auto; try (right; exact P); try (unfold one_const; simpl; lia); try apply exp_pos; try apply exp1_ne1; unfold upd; simpl; lra.
Qed.
Example c14_ex : 
  let e := ESum [EPow sx (ERat 2); ETrig Sin sy] in
  exists e', subs (GF dom_x exact_cfg 9) [("x"%string, ESum [sy; ERat 1]); ("y"%string, EPow sx (ERat (-1)))] e = Ok e' /\
  finite e = true.
Proof. eexists. split; [vm_compute; reflexivity|reflexivity]. Qed.
Example c15_ex :
  let e := EProd [ESum [sx; ERat 1]; EPow (ESum [sx; sy]) (ERat 2); EPow sx (ERat (-1))] in
  exists e', expandE (GF dom_x exact_cfg 9) 9 e = Ok e' /\ forall rho, 0 < rho "x"%string -> wd rho e /\ right_at rho dom_x.
Proof.
  eexists. split; [vm_compute; reflexivity|]. intros rho H. split; [|now apply dom_x_right].
  assert (P : rp rho sx) by (apply rp_unfold; simpl; auto).
  simpl. repeat split; auto; try (right; exact P); try (unfold one_const; simpl; lia).
  left. exists 2%Q. repeat split; auto. right. discriminate.
Qed.
Example c45_ex :
  factorE (GF dom_x exact_cfg 9) [EProd [ERat 6; EPow sx (ERat 2)]; EProd [ERat 2; sx; sy]]
    = Ok (EProd [ERat 2; sx; ESum [sy; EProd [ERat 3; sx]]]).
Proof. vm_compute. reflexivity. Qed.
Example c22_ex : k_log (GF nodom exact_cfg 9) (EPow EE (EProd [ERat 2; sx])) EE = Ok (EProd [ERat 2; sx]).
Proof. vm_compute. reflexivity. Qed.
Example c38_ex : exists e', replaceE (GF dom_x exact_cfg 9) (ESum [EPow sy (ERat 2); ETrig Sin sy]) sy (EPow sx (ERat (1#2))) = Ok e'.
Proof. eexists. vm_compute. reflexivity. Qed.

(** ** C12: what diff does not implement *)
Theorem c12_not_implemented (fk : fkern) n v b x : contains v b = true -> contains v x = true ->
  diffE fk (S n) v (EPow b x) = Raise NotImplementedError.
Proof. intros Hb Hx. cbn [diffE]. now rewrite Hb, Hx. Qed.
Example c12_ex : contains "x" sx = true /\ contains "x" (ETrig Sin sx) = true.
Proof. split; reflexivity. Qed.

(** ** C13: logarithms to another base, absolute values *)
(** diff(log(x, b)) = 1/x for every base, in the plain code. *)
Theorem c13_log_base_refuted b : b <> EE ->
  diffE (PF exact_cfg 3) 2 "x" (ELog sx b) = Ok (EPow sx (ERat (-1))) /\
  (forall rho B t, ev rho b = B -> contains "x" b = false -> 0 < B -> B <> 1 -> 0 < t ->
     is_derive (fun s => ev (upd rho "x" s) (ELog sx b)) t (/ t / ln B)).
Proof.
  intros Hb. split.
  - cbn [diffE]. simpl k_strict. cbn [negb orb guard]. vm_compute. reflexivity.
  - intros rho B t HB Hc H0 H1 Ht.
    apply (is_derive_ext (fun s => ln s / ln B)).
    + intros s. cbn [ev]. rewrite (ev_upd_notin rho "x" s b Hc), HB. unfold upd; simpl. reflexivity.
    + auto_derive; auto. unfold Rdiv. rewrite !Rmult_1_l. ring.
Qed.
(** Those two differ unless the base is e. *)
Theorem c13_log_base_differs B t : 0 < B -> B <> 1 -> 0 < t -> (/ t / ln B = / t <-> B = exp 1).
Proof.
  intros H0 H1 Ht. assert (LB : ln B <> 0) by (intros E; apply H1; apply ln_inv; [lra|lra|rewrite E, ln_1; auto]).
  split; intros H.
  - assert (E : / ln B = 1).
    { apply Rmult_eq_reg_l with (/ t); [unfold Rdiv in H; lra|]. apply Rinv_neq_0_compat. lra. }
    rewrite <- (exp_ln B) by auto. now rewrite <- (Rinv_inv (ln B)), E, Rinv_1.
  - subst. rewrite ln_exp. field. lra.
Qed.
(** diff(abs(x)) = 1; the derivative is -1 wherever x < 0. *)
Theorem c13_abs_refuted :
  diffE (PF exact_cfg 3) 2 "x" (EAbs sx) = Ok (ERat 1) /\
  forall rho t, t < 0 -> is_derive (fun s => ev (upd rho "x" s) (EAbs sx)) t (-1).
Proof.
  split; [vm_compute; reflexivity|]. intros rho t Ht.
  apply (is_derive_ext_loc (fun s => - s)).
  - eapply filter_imp; [|apply (locally_interval (t - 1) 0 t); lra]. simpl. intros s Hs.
    unfold upd; simpl. rewrite Rabs_left; lra.
  - auto_derive; auto.
Qed.

(** ** C15, second half *)
Theorem c15_not_expandable fk n e : expandable fk e = Ok false ->
  expandE fk (S n) e = Raise AssertionError.
Proof. apply expand_not_expandable. Qed.
Example c15_not_ex : expandable (PF exact_cfg 9) (EProd [sx; ETrig Sin sy]) = Ok false.
Proof. vm_compute. reflexivity. Qed.

(** ** C16, C17: combinatorics *)
Theorem c16_compositions i n l :
  In l (generate_permutations i n) <->
  List.length l = i /\ Forall (fun v => (0 <= v)%Z) l /\ fold_right Z.add 0%Z l = n.
Proof. apply generate_permutations_spec. Qed.
Theorem c16_once i n : NoDup (generate_permutations i n).
Proof. apply generate_permutations_nodup. Qed.
Example c16_ex : generate_permutations 2 2 = [[0; 2]; [1; 1]; [2; 0]]%Z.
Proof. reflexivity. Qed.

(** [fact] is the factorial of the standard library. *)
Definition zfac (z : Z) : Z := Z.of_nat (fact (Z.to_nat z)).
Lemma zfact_zfac z : zfact z = zfac z.
Proof. apply factn_fact. Qed.
Theorem c17_multinomial xs n : xs <> [] -> Forall (fun v => (0 <= v)%Z) xs ->
  (fold_right Z.add 0 xs <= n)%Z ->
  exists m, multinomial_coefficient xs n = Ok (inl m) /\
    (m * (fold_right Z.mul 1 (map zfac xs) * zfac (n - fold_right Z.add 0 xs)) = zfac n)%Z.
Proof.
  intros H1 H2 H3. destruct (multinomial_spec xs n H1 H2 H3) as (k & K1 & K2). exists k. split; auto.
  rewrite <- !zfact_zfac, <- K2. unfold zprod, zsum.
  rewrite (map_ext zfac zfact) by (intros; symmetry; apply zfact_zfac). reflexivity.
Qed.
(** Summing coefficient times powers over the generated exponents gives the power of the sum. *)
Theorem c17_theorem (ts : list R) (n : Z) : ts <> [] -> (0 <= n)%Z ->
  exists ms, mapM (fun p => multinomial_coefficient p n) (generate_permutations (List.length ts) n)
               = Ok (map inl ms) /\
  fold_right Rplus 0 (map (fun mp => IZR (fst mp) *
      fold_right Rmult 1 (map (fun tp => (fst tp) ^ Z.to_nat (snd tp)) (combine ts (snd mp))))
    (combine ms (generate_permutations (List.length ts) n)))
  = (fold_right Rplus 0 ts) ^ Z.to_nat n.
Proof.
  intros Hne Hn. pose proof (multinomial_theorem ts n Hne Hn) as T.
  exists (map (fun p => coeff p n) (generate_permutations (List.length ts) n)). split.
  - assert (A : Forall (fun p => p <> [] /\ Forall (fun v => (0 <= v)%Z) p /\ zsum p = n) (generate_permutations (List.length ts) n)).
    { apply Forall_forall. intros p Hp. apply generate_permutations_spec in Hp as (P1 & P2 & P3). split; auto.
      intros ->. destruct ts; [congruence|discriminate]. }
    clear T. induction A as [|p l (P1 & P2 & P3) _ IH]; [reflexivity|]. cbn [mapM map].
    destruct (multinomial_spec p n P1 P2) as (k & K1 & _); [lia|]. rewrite K1. cbn [bind].
    rewrite IH. cbn [bind]. unfold coeff at 2. now rewrite K1.
  - etransitivity; [|exact T]. unfold lsum. clear T Hne Hn.
    assert (Hl : Forall (fun p => List.length p = List.length ts) (generate_permutations (List.length ts) n)).
    { apply Forall_forall. intros p Hp. now apply generate_permutations_spec in Hp as (P1 & _ & _). }
    revert Hl. generalize (generate_permutations (List.length ts) n). intros ps Hl.
    induction Hl as [|p ps Hp _ IH]; simpl; auto. rewrite <- IH. f_equal. f_equal.
    clear IH. revert ts Hp. induction p as [|z p IHp]; intros [|t ts] Hp; simpl in *; auto; try discriminate.
    f_equal. apply IHp. now injection Hp.
Qed.
Example c17_ex : multinomial_coefficient [2; 1; 1]%Z 4 = Ok (inl 12%Z).
Proof. reflexivity. Qed.

(** ** C18: the special values, at q*pi for every tabulated reduced q *)
Theorem c18_table (c : cfg) (HX : fpow_exact (fpow c)) dom n rho f q e : right_at rho dom ->
  special (gk dom (K (strictly c) n)) f q = Ok e ->
  wd rho e /\ ev rho e = tev f (Q2R q * PI).
Proof.
  intros R H. eapply (special_sound rho); eauto. apply gk_sound; auto. now apply sound_strictly.
Qed.
(** Every entry of the tables of sin and cos exists, contains no trig function, and is what the
    constructor returns for q*pi + 2*k*pi. *)
Definition no_trig (e : expr) : bool := negb (gcontains (fun t => match t with ETrig _ _ => true | _ => false end) e).
Example c18_complete : Forall (fun q => forall f, (f = Sin \/ f = Cos) -> exists e,
    special (gk nodom (K strict_cfg 9)) f q = Ok e /\ no_trig e = true /\
    (forall k, (k = 0 \/ k = 2 \/ k = -4)%Z -> exists i, op_mul (K strict_cfg 9) (ERat (Qred (q + inject_Z k))) EPi = Ok i /\
      exists e', k_trig (F nodom strict_cfg 9) f i = Ok e' /\ no_trig e' = true)) special_keys.
Proof.
  repeat constructor; intros f [->| ->]; eexists; (split; [vm_compute; reflexivity|split; [reflexivity|]]);
    intros k [->|[->| ->]]; (eexists; split; [vm_compute; reflexivity|]); eexists; split; vm_compute; reflexivity.
Qed.
Example c18_ex : exists e, k_trig (GF nodom exact_cfg 9) Sin (EProd [ERat (17#4); EPi]) = Ok e /\
  k_trig (PF exact_cfg 9) Sin (EProd [ERat (17#4); EPi]) = Ok e.
Proof. eexists. split; vm_compute; reflexivity. Qed.

(** The same for every multiple: whenever q mod 2 is tabulated, the constructor takes the table
    entry, and its result contains no trig function.  (sin and tan first extract the sign of a
    negative multiple.) *)
Lemma div_pi c n q : qeqb q q_pi = false -> Qred q = q ->
  op_div (gk nodom (K c (S n))) (EProd [ERat q; EPi]) EPi = Ok (ERat q).
Proof.
  intros H Hr.
  change (op_div (gk nodom (K c (S n))) (EProd [ERat q; EPi]) EPi)
    with (k_prod (K c (S n)) [EProd [ERat q; EPi]; EPow EPi (ERat (-1))]).
  cbn [K build k_prod]. unfold prod_body, combine_prod.
  change (flat_prod [EProd [ERat q; EPi]; EPow EPi (ERat (-1))]) with [ERat q; EPi; EPow EPi (ERat (-1))].
  cbn [List.length combine_prod_go decon_pow split_base].
  assert (E1 : py_eq c EPi (ERat q) = Ok false).
  { unfold py_eq. cbn [coin eeqb]. now rewrite H, andb_false_r. }
  assert (E2 : py_eq c EPi EPi = Ok true) by (unfold py_eq; simpl; now rewrite andb_false_r).
  rewrite !E1. cbn [bind]. cbn [combine_prod_go decon_pow split_base]. rewrite E2. cbn [bind op_add split_base].
  change (isq (rat (1 + -1)) 0) with true. cbv iota. cbn [combine_prod_go bind add_term is_acc fst snd acc_prod].
  destruct (isq (ERat q) 0) eqn:Z0; [reflexivity|].
  destruct (isq (ERat q) 1) eqn:Z1; [|reflexivity].
  simpl in Z1. apply Qeq_bool_eq in Z1. apply Qred_complete in Z1. rewrite Hr in Z1. now rewrite Z1.
Qed.

Definition is_trig_node (t : expr) : bool := match t with ETrig _ _ => true | _ => false end.
Lemma no_trig_her : Her (fun e => no_trig e = true).
Proof.
  unfold no_trig.
  assert (N : forall e, negb (gcontains is_trig_node e) = true <-> gcontains is_trig_node e = false)
    by (intros; apply negb_true_iff).
  assert (X : forall ts, negb (existsb (gcontains is_trig_node) ts) = true <-> Forall (fun e => negb (gcontains is_trig_node e) = true) ts).
  { induction ts as [|t ts IH]; simpl; split; auto.
    - rewrite negb_orb. intros H. apply andb_prop in H as [A B]. constructor; auto. now apply IH.
    - intros H. inversion H; subst. rewrite negb_orb. apply andb_true_intro. split; auto. now apply IH. }
  apply mkHer; auto.
  all: try (intros b x; cbn; rewrite negb_orb, andb_true_iff; tauto).
  intros i. cbn. reflexivity.
Qed.
Lemma gk_her P d k : KHer True P k -> KHer True P (gk d k).
Proof.
  intros H. constructor; simpl; intros; try (now apply H).
  destruct (_ || _); simpl; [now apply H|exact I].
Qed.

Lemma special_no_trig c n d f q e : special (gk d (K c n)) f q = Ok e -> no_trig e = true.
Proof.
  assert (HK : KHer True (fun e => no_trig e = true) (gk d (K c n))) by (apply gk_her, K_her; auto using no_trig_her).
  set (k := gk d (K c n)) in *. set (P := fun e => no_trig e = true) in *.
  pose proof no_trig_her as HP.
  assert (Sq : forall z, rall True P (sqrtE k (ERat z))).
  { intros z. unfold sqrtE. apply op_pow_her; auto; reflexivity. }
  assert (O2 : forall z, rall True P (over_sqrt2 k z)).
  { intros z. unfold over_sqrt2. eapply rall_bind; [apply Sq|]. intros s Hs. apply op_div_her; auto; reflexivity. }
  assert (S3 : rall True P (sqrt3_2 k)).
  { unfold sqrt3_2. eapply rall_bind; [apply Sq|]. intros s Hs. apply op_div_her; auto; reflexivity. }
  assert (N3 : rall True P (nsqrt3_2 k)).
  { unfold nsqrt3_2. eapply rall_bind; [apply Sq|]. intros s Hs. eapply rall_bind; [eapply op_neg_her; eauto|].
    intros; apply op_div_her; auto; reflexivity. }
  assert (LT : forall t, Forall (fun p => rall True P (snd p)) t -> rall True P (lookup_q q t)).
  { induction 1 as [|[p r] t Hr _ IH]; [exact I|]. simpl. destruct (Qeq_bool p q); auto. }
  assert (T1 : rall True P (lookup_q q (sin_table k))) by (apply LT; unfold sin_table, cos_table; repeat (apply Forall_cons; [cbn [snd]; auto; reflexivity|]); apply Forall_nil).
  assert (T2 : rall True P (lookup_q q (cos_table k))) by (apply LT; unfold sin_table, cos_table; repeat (apply Forall_cons; [cbn [snd]; auto; reflexivity|]); apply Forall_nil).
  assert (G : rall True P (special k f q)).
  { unfold special. cbv zeta. destruct f; auto; try exact I;
    repeat (eapply rall_bind; [eassumption|]; intros ? ?); apply op_div_her; auto; reflexivity. }
  intros H. rewrite H in G. exact G.
Qed.

Theorem c18_closed c n f q e : is_inverse f = false -> Qred q = q -> qeqb q q_pi = false ->
  (exists p, In p special_keys /\ (p == qmod q 2)%Q) ->
  (f = Sin \/ f = Tan -> (0 < q)%Q) ->
  k_trig (PF c (S n)) f (EProd [ERat q; EPi]) = Ok e ->
  special (gk nodom (K (faithful c) (S n))) f (qmod q 2) = Ok e /\ no_trig e = true.
Proof.
  intros Hi Hr Hq (p & Hp & Ep) Hpos H.
  assert (SK : existsb (fun p => Qeq_bool p (qmod q 2)) special_keys = true).
  { apply existsb_exists. exists p. split; auto. now apply Qeq_bool_iff. }
  assert (B : trig_base (gk nodom (K (faithful c) (S n))) f (EProd [ERat q; EPi])
              = special (gk nodom (K (faithful c) (S n))) f (qmod q 2)).
  { unfold trig_base. change (isq (EProd [ERat q; EPi]) 0) with false. rewrite Hi.
    change (has_pi (EProd [ERat q; EPi])) with true. cbn [negb andb]. rewrite div_pi by auto. cbn [bind].
    now rewrite SK. }
  assert (H' : mk_trig (gk nodom (K (faithful c) (S n))) (S n) f (EProd [ERat q; EPi]) = Ok e).
  { unfold PF, F in H. cbn [k_trig] in H. unfold guard in H. now rewrite orb_true_r in H. }
  assert (NS : f = Sin \/ f = Tan -> is_sub (EProd [ERat q; EPi]) = false).
  { intros X. apply Hpos in X. simpl. unfold qlt0. apply Z.ltb_ge. unfold Qlt in X. simpl in X. lia. }
  assert (R : special (gk nodom (K (faithful c) (S n))) f (qmod q 2) = Ok e).
  { cbn [mk_trig] in H'. destruct f; try discriminate Hi; rewrite ?NS in H' by auto; rewrite B in H'; auto.
    apply bind_ok in H' as (r & H1 & H2). rewrite H1. pose proof (special_no_trig _ _ _ _ _ _ H1) as NT.
    destruct r; auto. discriminate. }
  split; auto. eapply special_no_trig; eauto.
Qed.
Example c18_closed_ex : let q := (-17#6)%Q in Qred q = q /\ qeqb q q_pi = false /\
  (exists p, In p special_keys /\ (p == qmod q 2)%Q) /\
  exists e, k_trig (PF exact_cfg 9) Cos (EProd [ERat q; EPi]) = Ok e.
Proof.
  repeat split; try reflexivity. exists (7#6)%Q. split; [simpl; tauto|reflexivity].
  eexists. vm_compute. reflexivity.
Qed.

(** ** C20: inverse of a trig function *)
Theorem c20_asin_sin_refuted x : 
  k_trig (PF exact_cfg 3) Asin (ETrig Sin (ESym x)) = Ok (ESym x) /\
  k_trig (PF exact_cfg 3) Acos (ETrig Cos (ESym x)) = Ok (ESym x) /\
  k_trig (PF exact_cfg 3) Atan (ETrig Tan (ESym x)) = Ok (ESym x) /\
  k_trig (PF exact_cfg 3) Atan (ETrig Cot (ESym x)) = Ok (EPow (ESym x) (ERat (-1))).
Proof. repeat split; vm_compute; reflexivity. Qed.
(** The first three are right exactly on the principal range; the last is wrong e.g. at 1 ... *)
Theorem c20_range v :
  (asin (sin v) = v <-> - (PI / 2) <= v <= PI / 2) /\
  (acos (cos v) = v <-> 0 <= v <= PI) /\
  (atan (tan v) = v <-> - (PI / 2) < v < PI / 2).
Proof.
  split; [|split]; split; intros H.
  - rewrite <- H. apply asin_bound.
  - now apply asin_sin.
  - rewrite <- H. apply acos_bound.
  - now apply acos_cos.
  - pose proof (atan_bound (tan v)). lra.
  - apply atan_tan. lra.
Qed.
(** ... in fact at every positive x with x*(pi/2 - x) <> 1 in the first period. *)
Theorem c20_cot v : 0 < v < PI -> atan (cos v / sin v) = PI / 2 - v.
Proof.
  intros H. assert (Hs : 0 < sin v) by (apply sin_gt_0; lra).
  replace (cos v / sin v) with (tan (PI / 2 - v)).
  - apply atan_tan. lra.
  - unfold tan. now rewrite sin_shift, cos_shift.
Qed.
Theorem c20_cot_refuted : exists v, atan (cos v / sin v) <> / v.
Proof.
  exists (PI / 2). rewrite cos_PI2, sin_PI2. unfold Rdiv at 1. rewrite Rmult_0_l, atan_0.
  intros H. pose proof PI_RGT_0. assert (0 < / (PI / 2)) by (apply Rinv_0_lt_compat; lra). lra.
Qed.

(** ** C21: inverse functions at 0 *)
Theorem c21_raises c n f : is_inverse f = true -> k_trig (PF c (S n)) f (ERat 0) = Raise ValueError.
Proof. destruct f; try discriminate; reflexivity. Qed.
Theorem c21_values : asin 0 = 0 /\ acos 0 = PI / 2 /\ atan 0 = 0.
Proof. split; [apply asin_0|split; [apply acos_0|apply atan_0]]. Qed.

(** ** C37: eq_with_var *)
Theorem c37_rename x y a b : eq_with_var x y a b = true <-> b = rename x y a.
Proof. apply eq_with_var_rename. Qed.
Theorem c37_value x y a b rho : eq_with_var x y a b = true -> ev rho b = ev (upd rho x (rho y)) a.
Proof. intros H. apply eq_with_var_rename in H as ->. apply rename_ev. Qed.
Example c37_ex : eq_with_var "x" "u" (ESum [EPow sx (ERat 2); ETrig Sin sx]) (ESum [EPow (ESym "u") (ERat 2); ETrig Sin (ESym "u")]) = true.
Proof. reflexivity. Qed.

(** ** C39: symbol queries *)
Theorem c39_agree v e :
  (contains v e = true <-> In v (symbols e)) /\
  (contains v e = true <-> (0 < countE (ESym v) e)%nat) /\
  ((0 < count_symbols e)%nat <-> exists w, contains w e = true).
Proof. split; [apply contains_symbols|split; [apply contains_count|apply count_symbols_pos]]. Qed.
Theorem c39_independent v e rho t : contains v e = false -> ev (upd rho v t) e = ev rho e.
Proof. apply ev_upd_notin. Qed.
Theorem c39_diff_zero c (HX : fpow_exact (fpow c)) dom n d rho v a b e e' :
  (forall t, a < t < b -> right_at (upd rho v t) dom) ->
  (forall t, a < t < b -> wd (upd rho v t) e) -> contains v e = false ->
  diffE (GF dom c n) d v e = Ok e' -> forall t, a < t < b -> ev (upd rho v t) e' = 0.
Proof.
  intros R W C H t Ht. destruct (c11_diff c HX dom n n (le_n n) d rho v a b e e' R W H) as [_ D].
  destruct (D t Ht) as [_ D']. apply is_derive_unique in D'. rewrite <- D'.
  apply is_derive_unique. now apply (const_derive rho v).
Qed.
Example c39_ex : contains "x" (EProd [sx; ETrig Sin sy]) = true /\ contains "z" (EProd [sx; ETrig Sin sy]) = false.
Proof. split; reflexivity. Qed.
