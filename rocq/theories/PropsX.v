(** * PropsX: trig functions of tabulated angles always return the exact value (C18). *)
From Coquelicot Require Import Coquelicot.
From Verif Require Import Base Expr Kernel Mono Funcs FMono Calc Sem RealLemmas Sound Atoms Agree Oracle FSound TrigSimp PropsA PropsB PropsC.
From Coq Require Import Lqa Qround.
From Coq Require Lra.
Close Scope R_scope.
Local Open Scope nat_scope.

(** q*pi as the constructors build it *)
Definition piq (q : Q) : expr := if Qeq_bool q 0 then ERat 0 else if Qeq_bool q 1 then EPi else EProd [ERat q; EPi].
(** [q] is a tabulated angle plus full turns *)
Definition tabulated (q : Q) (p : Q) : Prop := In p special_keys /\ exists z, (q == p + 2 * inject_Z z)%Q.

Lemma tab_qmod q p : tabulated q p -> (qmod q 2 == p)%Q.
Proof.
  intros (Hp & z & E). unfold qmod.
  assert (B : (0 <= p /\ p < 2)%Q). { cbn [special_keys In] in Hp. repeat (destruct Hp as [<- | Hp]; [split; [now apply Qle_bool_iff|reflexivity]|]). destruct Hp. }
  assert (F : Qfloor (q / 2) = z).
  { assert (E2 : (q / 2 == p / 2 + inject_Z z)%Q) by (rewrite E; field). rewrite E2.
    pose proof (Qfloor_le (p / 2 + inject_Z z)) as H1. pose proof (Qlt_floor (p / 2 + inject_Z z)) as H2.
    set (f := Qfloor _) in *. destruct B as [B1 B2].
    assert (L1 : (inject_Z f < inject_Z (z + 1))%Q). { rewrite inject_Z_plus. change (inject_Z 1) with 1%Q. assert (p / 2 < 1)%Q by (apply Qlt_shift_div_r; [reflexivity|lra]). lra. }
    assert (L2 : (inject_Z z < inject_Z (f + 1))%Q). { assert (0 <= p / 2)%Q by (apply Qle_shift_div_l; [reflexivity|lra]). lra. }
    rewrite <- Zlt_Qlt in L1, L2. lia. }
  rewrite F, E. ring.
Qed.
Lemma tab_not_pi q p : tabulated q p -> qeqb q q_pi = false.
Proof.
  intros (Hp & z & E). destruct (qeqb q q_pi) eqn:H; auto. exfalso. assert (Eq : q = q_pi). { unfold qeqb in H. apply andb_prop in H as [H1 H2]. apply Z.eqb_eq in H1. apply Pos.eqb_eq in H2. destruct q; simpl in *. now subst. } rewrite Eq in E. clear H Eq q.
  cbn [special_keys In] in Hp. repeat (destruct Hp as [<- | Hp]; [unfold q_pi, Qeq, Qplus, Qmult, inject_Z in E; cbn [Qnum Qden] in E; lia|]). destruct Hp.
Qed.
Lemma tab_neg q p : tabulated q p -> exists p', tabulated (- q) p'.
Proof.
  intros (Hp & z & E). destruct (Qeq_bool p 0) eqn:Z.
  - exists 0%Q. split; [simpl; auto|]. exists (- z)%Z. apply Qeq_bool_eq in Z. rewrite E, Z, inject_Z_opp. ring.
  - assert (G : exists p', In p' special_keys /\ (p' == 2 - p)%Q).
    { cbn [special_keys In] in Hp. destruct Hp as [<- | Hp]; [discriminate|].
      repeat (destruct Hp as [<- | Hp]; [match goal with |- exists p', _ /\ (p' == 2 - ?x)%Q => exists (Qred (2 - x)) end; split; [vm_compute; tauto|apply Qred_correct]|]). destruct Hp. }
    destruct G as (p' & Hp' & Ep). exists p'. split; auto. exists (- z - 1)%Z. rewrite E, Ep. unfold Zminus. rewrite inject_Z_plus, !inject_Z_opp. change (inject_Z 1) with 1%Q. ring.
Qed.
Lemma tab_eq q q' p : (q == q')%Q -> tabulated q p -> tabulated q' p.
Proof. intros E (Hp & z & H). split; auto. exists z. now rewrite <- E. Qed.

Section Run.
Context (c : cfg) (dom : expr -> bool) (n : nat).
Notation k := (gk dom (K c (S (S n)))).
Lemma pi_rat q : qeqb q q_pi = false -> py_eq c EPi (ERat q) = Ok false /\ py_eq c (ERat q) EPi = Ok false.
Proof. intros H. unfold py_eq. cbn [coin eeqb]. rewrite H. rewrite !andb_false_r. auto. Qed.
Lemma qred_eq p q : Qred p = p -> Qred q = q -> (p == q)%Q -> p = q.
Proof. intros A B E. apply Qred_complete in E. congruence. Qed.
Lemma mul_pi q : qeqb q q_pi = false -> Qred q = q -> op_mul k (ERat q) EPi = Ok (piq q).
Proof.
  intros H Hr. change (op_mul k (ERat q) EPi) with (k_prod (K c (S (S n))) [ERat q; EPi]).
  cbn [K build k_prod]. unfold prod_body, combine_prod. change (flat_prod [ERat q; EPi]) with [ERat q; EPi].
  cbn [List.length combine_prod_go decon_pow split_base]. destruct (pi_rat q H) as [E1 E2]. rewrite !E1. cbn [bind combine_prod_go decon_pow split_base].
  cbn [add_term is_acc fst snd acc_prod isq bind]. unfold piq.
  destruct (Qeq_bool q 0) eqn:Z0; [cbn; apply Qeq_bool_eq in Z0; apply (qred_eq q 0) in Z0; auto; now subst|].
  destruct (Qeq_bool q 1); reflexivity.
Qed.
Lemma div_piq q : qeqb q q_pi = false -> Qred q = q -> ~ (q == 0)%Q -> op_div k (piq q) EPi = Ok (ERat q).
Proof.
  intros H Hr H0. unfold piq. destruct (Qeq_bool q 0) eqn:Z0; [apply Qeq_bool_eq in Z0; tauto|].
  destruct (Qeq_bool q 1) eqn:Z1; [|exact (div_pi c (S n) q H Hr)]. apply Qeq_bool_eq in Z1. apply (qred_eq q 1) in Z1; auto. subst q.
  change (op_div k EPi EPi) with (k_prod (K c (S (S n))) [EPi; EPow EPi (ERat (-1))]).
  cbn [K build k_prod]. unfold prod_body, combine_prod. change (flat_prod [EPi; EPow EPi (ERat (-1))]) with [EPi; EPow EPi (ERat (-1))].
  cbn [List.length combine_prod_go decon_pow split_base]. assert (E2 : py_eq c EPi EPi = Ok true) by (unfold py_eq; simpl; now rewrite andb_false_r).
  rewrite E2. reflexivity.
Qed.
Lemma neg_piq q : qeqb q q_pi = false -> Qred q = q -> (q < 0)%Q -> op_neg k (piq q) = Ok (piq (Qred (- q))).
Proof.
  intros H Hr L. unfold piq at 1. destruct (Qeq_bool q 0) eqn:Z0; [apply Qeq_bool_eq in Z0; rewrite Z0 in L; discriminate|].
  destruct (Qeq_bool q 1) eqn:Z1; [apply Qeq_bool_eq in Z1; rewrite Z1 in L; discriminate|].
  change (op_neg k (EProd [ERat q; EPi])) with (k_prod (K c (S (S n))) [ERat (-1); EProd [ERat q; EPi]]).
  cbn [K build k_prod]. unfold prod_body, combine_prod. change (flat_prod [ERat (-1); EProd [ERat q; EPi]]) with [ERat (-1); ERat q; EPi].
  cbn [List.length combine_prod_go decon_pow split_base]. destruct (pi_rat q H) as [E1 E2]. destruct (pi_rat (-1) eq_refl) as [E3 E4].
  destruct (Qeq_bool q (-1)) eqn:Z2.
  - apply Qeq_bool_eq in Z2. apply (qred_eq q (-1)) in Z2; auto. subst q.
    assert (E5 : py_eq c (ERat (-1)) (ERat (-1)) = Ok true) by (unfold py_eq; simpl; now rewrite andb_false_r).
    rewrite E5. cbn [bind]. rewrite E3. cbn [bind op_add split_base].
    change (isq (rat (1 + 1)) 0) with false. change (isq (rat (1 + 1)) 1) with false. cbv iota.
    assert (E6 : k_pow (build c (K c n)) (ERat (-1)) (rat (1 + 1)) = Ok (ERat 1)) by reflexivity.
    rewrite E6. reflexivity.
  - assert (Z3 : qeqb q (-1) = false) by (destruct (qeqb q (-1)) eqn:E; auto; apply Sound.qeqb_eq in E; subst q; discriminate).
    assert (E5 : py_eq c (ERat q) (ERat (-1)) = Ok false) by (unfold py_eq; cbn [coin eeqb]; rewrite Z3, andb_false_r; reflexivity).
    rewrite E5. cbn [bind]. rewrite E3. cbn [bind combine_prod_go decon_pow split_base]. rewrite E1. cbn [bind combine_prod_go decon_pow split_base].
    cbn [add_term is_acc fst snd acc_prod val_mul bind isq]. change (Qred (-1 * q)) with (Qred (- q)).
    assert (N0 : isq (rat (-1 * q)) 0 = false). { apply Bool.not_true_is_false. cbn [isq rat]. rewrite Qeq_bool_iff, Qred_correct. intros E. lra. }
    assert (N1 : isq (rat (-1 * q)) 1 = false). { apply Bool.not_true_is_false. cbn [isq rat]. rewrite Qeq_bool_iff, Qred_correct. intros E. apply Bool.diff_false_true. rewrite <- Z2. apply Qeq_bool_iff. lra. }
    unfold rat in N0, N1. cbn [isq] in N0, N1. unfold piq. change (Qred (- q)) with (Qred (-1 * q)). rewrite N0, N1.
    change (foldM val_mul [ERat (-1); ERat q] (ERat 1)) with (Ok (ERat (Qred (-1 * q)))). cbn [bind isq]. rewrite N0, N1. reflexivity.
Qed.

(** the constructors read the table *)
Lemma lookup_eq p q t : (p == q)%Q -> lookup_q p t = lookup_q q t.
Proof. intros E. induction t as [|[x r] t IH]; auto. cbn [lookup_q]. rewrite IH. assert (Ex : Qeq_bool x p = Qeq_bool x q) by (apply Bool.eq_iff_eq_true; rewrite !Qeq_bool_iff; split; intros; lra). now rewrite Ex. Qed.
Lemma special_eq f p q : (p == q)%Q -> special k f p = special k f q.
Proof. intros E. unfold special. now rewrite !(lookup_eq p q) by auto. Qed.
Lemma base_piq f q p : is_inverse f = false -> Qred q = q -> tabulated q p -> trig_base k f (piq q) = special k f p.
Proof.
  intros Hi Hr T. pose proof (tab_not_pi q p T) as Np. pose proof (tab_qmod q p T) as Em. unfold trig_base.
  destruct (Qeq_bool q 0) eqn:Z0.
  - assert (E0 : piq q = ERat 0) by (unfold piq; now rewrite Z0). rewrite E0. change (isq (ERat 0) 0) with true. cbv iota. apply special_eq.
    apply Qeq_bool_eq in Z0. rewrite <- Em. apply (qred_eq q 0) in Z0; auto. now subst.
  - assert (N0 : ~ (q == 0)%Q) by (intros E; apply Qeq_bool_iff in E; congruence).
    assert (E1 : isq (piq q) 0 = false) by (unfold piq; rewrite Z0; destruct (Qeq_bool q 1); reflexivity).
    assert (E2 : has_pi (piq q) = true) by (unfold piq; rewrite Z0; destruct (Qeq_bool q 1); reflexivity).
    rewrite E1, E2, Hi, (div_piq q Np Hr N0). cbn [negb andb bind].
    assert (SK : existsb (fun p => Qeq_bool p (qmod q 2)) special_keys = true).
    { apply existsb_exists. exists p. split; [apply T|]. apply Qeq_bool_iff. now symmetry. }
    rewrite SK. now apply special_eq.
Qed.
End Run.

(** ** The runs, with the exact float test *)
Definition surds : list expr :=
  let s2 := EPow (ERat 2) (ERat (1#2)) in let s3 := EPow (ERat 3) (ERat (1#2)) in let r2 := EPow (ERat 2) (ERat (-1#2)) in
  map (fun b => EPow b (ERat (-1))) [s2; r2; EProd [ERat (1#2); s3]; EProd [ERat (-1#2); s3]; EProd [ERat (-1); r2]].
Definition doms (f : trig) (q : Q) (t : expr) : bool := existsb (sameb t) (surds ++ [ETrig f (piq q)]).
Definition good (f : trig) (p : Q) : bool :=
  match f with Tan | Sec => negb (Qeq_bool p (1#2) || Qeq_bool p (3#2)) | Csc | Cot => negb (Qeq_bool p 0 || Qeq_bool p 1) | _ => true end.

Lemma table_good g q f p : is_inverse f = false -> In p special_keys -> good f p = true ->
  exists e e', special (gk (doms g q) (K (strictly exact_cfg) 9)) f p = Ok e /\ op_neg (gk (doms g q) (K (strictly exact_cfg) 9)) e = Ok e' /\ no_trig e' = true.
Proof.
  intros Hi Hp G. cbn [special_keys In] in Hp.
  repeat (destruct Hp as [<- | Hp]; [destruct f; try discriminate Hi; try discriminate G; (eexists; eexists; (split; [vm_compute; reflexivity|split; [vm_compute; reflexivity|reflexivity]]))|]). destruct Hp.
Qed.
Lemma good_neg f q p p' : tabulated q p -> tabulated (- q) p' -> good f p = true -> good f p' = true.
Proof.
  intros (Hp & z & E) (Hp' & z' & E') G. assert (S0 : (p + p' + 2 * inject_Z (z + z') == 0)%Q) by (rewrite inject_Z_plus; lra). clear E E'. set (w := (z + z')%Z) in *. clearbody w.
  destruct (good f p') eqn:G'; auto. exfalso.
  cbn [special_keys In] in Hp, Hp'.
  repeat (destruct Hp' as [<- | Hp']; [try (destruct f; discriminate G');
    repeat (destruct Hp as [<- | Hp]; [unfold Qeq, Qplus, Qmult, inject_Z in S0; cbn [Qnum Qden] in S0; first [lia|destruct f; discriminate]|]); destruct Hp|]). destruct Hp'.
Qed.
Lemma sub_piq q : is_sub (piq q) = true -> (q < 0)%Q.
Proof. unfold piq. destruct (Qeq_bool q 0); [discriminate|]. destruct (Qeq_bool q 1); [discriminate|]. cbn [is_sub]. unfold qlt0. intros H. apply Z.ltb_lt in H. unfold Qlt. simpl. lia. Qed.
Lemma pos_piq q : (0 < q)%Q -> is_sub (piq q) = false.
Proof. intros H. destruct (is_sub (piq q)) eqn:E; auto. apply sub_piq in E. lra. Qed.
(** one run *)
Lemma run_good g q0 f q p : is_inverse f = false -> Qred q = q -> tabulated q p -> good f p = true ->
  let k := gk (doms g q0) (K (strictly exact_cfg) 9) in
  exists e, mk_trig k 9 f (piq q) = Ok e /\ no_trig e = true /\
   (special k f p = Ok e \/ exists p' e0, tabulated (- q) p' /\ special k f p' = Ok e0 /\ op_neg k e0 = Ok e).
Proof.
  intros Hi Hr T G k. set (dm := doms g q0) in k.
  assert (Bs : forall f q p, is_inverse f = false -> Qred q = q -> tabulated q p -> trig_base k f (piq q) = special k f p).
  { intros. now apply base_piq. }
  assert (NT : forall f q e, special k f q = Ok e -> no_trig e = true) by (intros; eapply special_no_trig; eauto).
  destruct (table_good g q0 f p Hi (proj1 T) G) as (e & e' & E & _). fold dm k in E.
  assert (Plain : trig_base k f (piq q) = Ok e) by (rewrite (Bs f q p); auto).
  pose proof (NT f p e E) as Ne.
  assert (Done : exists e1, Ok e = Ok e1 /\ no_trig e1 = true /\
   (special k f p = Ok e1 \/ exists p' e0, tabulated (- q) p' /\ special k f p' = Ok e0 /\ op_neg k e0 = Ok e1)) by (exists e; auto).
  assert (Sign : f = Sin \/ f = Tan -> exists e1, mk_trig k 9 f (piq q) = Ok e1 /\ no_trig e1 = true /\
   (special k f p = Ok e1 \/ exists p' e0, tabulated (- q) p' /\ special k f p' = Ok e0 /\ op_neg k e0 = Ok e1)).
  { intros Hf. assert (M : forall n i, mk_trig k (S n) f i = if is_sub i then m <- op_neg k i;; r <- mk_trig k n f m;; op_neg k r else trig_base k f i).
    { intros n i. destruct Hf as [-> | ->]; reflexivity. }
    rewrite M. destruct (is_sub (piq q)) eqn:Sb; [|rewrite Plain; exact Done]. apply sub_piq in Sb.
    assert (En : op_neg k (piq q) = Ok (piq (Qred (- q)))) by (apply neg_piq; auto; eapply tab_not_pi; eauto). rewrite En. cbn [bind].
    destruct (tab_neg q p T) as (p' & T').
    assert (T2 : tabulated (Qred (- q)) p') by (eapply tab_eq; [symmetry; apply Qred_correct|exact T']).
    rewrite M, pos_piq by (rewrite Qred_correct; lra). rewrite (Bs f _ p' Hi (Qred_complete _ _ (Qred_correct _)) T2).
    destruct (table_good g q0 f p' Hi (proj1 T') (good_neg f q p p' T T' G)) as (e0 & e1 & E0 & E1 & N1). fold dm k in E0, E1. rewrite E0. cbn [bind].
    exists e1. split; [exact E1|]. split; [exact N1|]. right. exists p', e0. auto. }
  destruct f; try discriminate Hi; auto; cbn [mk_trig]; rewrite Plain; cbn [bind]; auto.
  destruct e; auto. discriminate Ne.
Qed.

(** ** C18, total *)
Open Scope R_scope.
Lemma zero_special dm f g p : (f = Cos /\ g = Tan) \/ (f = Sin /\ g = Cot) -> In p special_keys -> good g p = false ->
  special (gk dm (K (strictly exact_cfg) 9)) f p = Ok (ERat 0).
Proof.
  intros [[-> ->]|[-> ->]] Hp G; cbn [special_keys In] in Hp; repeat (destruct Hp as [<- | Hp]; [first [discriminate G|reflexivity]|]); destruct Hp.
Qed.
Lemma surd_pos rho p q : (0 < p)%Q -> 0 < ev rho (EPow (ERat p) (ERat q)).
Proof. intros H. cbn [ev]. rewrite (proj1 c06_rpow_meaning); [apply exp_pos|]. apply Qreals.Qlt_Rlt in H. replace (Q2R 0) with 0 in H by (unfold Q2R; simpl; Lra.lra). exact H. Qed.
Lemma doms_right rho f q : is_inverse f = false -> tdom f (ev rho (piq q)) -> right_at rho (doms f q).
Proof.
  intros Hi D t H. unfold doms in H. apply existsb_exists in H as (x & Hx & H). unfold sameb in H. apply andb_prop in H as [H1 H2]. apply negb_true_iff in H2.
  apply eqb_coin in H1; auto. subst x.
  assert (P2 : 0 < ev rho (EPow (ERat 2) (ERat (1 # 2)))) by (apply surd_pos; reflexivity).
  assert (P3 : 0 < ev rho (EPow (ERat 3) (ERat (1 # 2)))) by (apply surd_pos; reflexivity).
  assert (P4 : 0 < ev rho (EPow (ERat 2) (ERat (-1 # 2)))) by (apply surd_pos; reflexivity).
  apply in_app_or in Hx as [Hx|[<-|[]]].
  - unfold surds in Hx. cbn [map In] in Hx. destruct Hx as [<-|[<-|[<-|[<-|[<-|[]]]]]]; cbn [node_ok]; left; exists (-1)%Q; (split; [reflexivity|split; [reflexivity|left]]).
    + Lra.lra.
    + Lra.lra.
    + change (Q2R (1#2) * (ev rho (EPow (ERat 3) (ERat (1 # 2))) * 1) <> 0). set (x := ev rho (EPow (ERat 3) (ERat (1 # 2)))) in *. clearbody x. unfold Q2R. simpl. Lra.lra.
    + change (Q2R (-1#2) * (ev rho (EPow (ERat 3) (ERat (1 # 2))) * 1) <> 0). set (x := ev rho (EPow (ERat 3) (ERat (1 # 2)))) in *. clearbody x. unfold Q2R. simpl. Lra.lra.
    + change (Q2R (-1) * (ev rho (EPow (ERat 2) (ERat (-1 # 2))) * 1) <> 0). set (x := ev rho (EPow (ERat 2) (ERat (-1 # 2)))) in *. clearbody x. unfold Q2R. simpl. Lra.lra.
  - cbn [node_ok]. split; [exact D|]. destruct f; try discriminate Hi; exact Logic.I.
Qed.
Lemma piq_ev rho q : ev rho (piq q) = Q2R q * PI /\ wd rho (piq q).
Proof.
  unfold piq. destruct (Qeq_bool q 0) eqn:Z0; [|destruct (Qeq_bool q 1) eqn:Z1].
  - apply Qeq_bool_eq, Qreals.Qeq_eqR in Z0. cbn [ev wd]. rewrite Z0. split; [Lra.lra|exact Logic.I].
  - apply Qeq_bool_eq, Qreals.Qeq_eqR in Z1. cbn [ev wd]. rewrite Z1. split; [unfold Q2R; simpl; Lra.lra|exact Logic.I].
  - split; [change (Q2R q * (PI * 1) = Q2R q * PI); Lra.lra|]. cbn [wd]. repeat split; auto. unfold one_const. simpl. lia.
Qed.
Lemma run_sound f q p rho : is_inverse f = false -> Qred q = q -> tabulated q p -> good f p = true -> tdom f (Q2R q * PI) ->
  let k := gk (doms f q) (K (strictly exact_cfg) 9) in
  exists e, k_trig (GF (doms f q) exact_cfg 9) f (piq q) = Ok e /\ no_trig e = true /\ wd rho e /\ ev rho e = tev f (Q2R q * PI) /\
   (special k f p = Ok e \/ exists p' e0, tabulated (- q) p' /\ special k f p' = Ok e0 /\ op_neg k e0 = Ok e).
Proof.
  intros Hi Hr T G D k. destruct (run_good f q f q p Hi Hr T G) as (e & E & N & S). exists e. fold k in S. destruct (piq_ev rho q) as [V Wd].
  assert (E' : k_trig (GF (doms f q) exact_cfg 9) f (piq q) = Ok e).
  { unfold GF, F. cbn [k_trig]. assert (Dm : trig_always f || doms f q (ETrig f (piq q)) = true).
    { apply orb_true_intro. right. unfold doms. apply existsb_exists. exists (ETrig f (piq q)). split; [apply in_or_app; right; now left|].
      unfold piq. destruct (Qeq_bool q 0); [destruct f; reflexivity|]. destruct (Qeq_bool q 1); [destruct f; reflexivity|].
      unfold sameb. cbn [eeqb coin]. rewrite qeqb_refl. destruct f; reflexivity. }
    rewrite Dm. exact E. }
  split; [exact E'|]. split; [exact N|].
  destruct (c19_trig exact_cfg fpow_exact_oracle_exact (doms f q) 9 9 (Nat.le_refl _) rho f (piq q) e) as (_ & _ & W & V'); auto.
  { apply doms_right; auto. now rewrite V. }
  rewrite V in V'. auto.
Qed.
Lemma tdom_good f q p : is_inverse f = false -> Qred q = q -> tabulated q p -> tdom f (Q2R q * PI) -> good f p = true.
Proof.
  intros Hi Hr T D. destruct (good f p) eqn:G; auto. exfalso. set (rho := fun _ : string => 0).
  assert (Z : forall h g, (h = Cos /\ g = Tan) \/ (h = Sin /\ g = Cot) -> good g p = false -> tev h (Q2R q * PI) = 0).
  { intros h g H Gg. assert (Hh : is_inverse h = false) by (destruct H as [[-> _]|[-> _]]; reflexivity).
    destruct (run_sound h q p rho Hh Hr T) as (e & _ & _ & _ & V & S); [destruct H as [[-> _]|[-> _]]; reflexivity|destruct H as [[-> _]|[-> _]]; exact Logic.I|].
    rewrite <- V. assert (e = ERat 0); [|subst e; cbn [ev]; unfold Q2R; simpl; Lra.lra].
    destruct S as [S|(p' & e0 & T' & S & N)].
    - rewrite (zero_special _ h g p H (proj1 T) Gg) in S. congruence.
    - assert (Gg' : good g p' = false).
      { destruct (good g p') eqn:Gp; auto. assert (Tn : tabulated (- - q) p) by (eapply tab_eq; [|exact T]; ring). pose proof (good_neg g (- q) p' p T' Tn Gp). congruence. }
      rewrite (zero_special _ h g p' H (proj1 T') Gg') in S. injection S as <-. vm_compute in N. congruence. }
  destruct f; try discriminate Hi; try discriminate G; cbn [tdom] in D; apply D.
  - apply (Z Cos Tan); auto.
  - apply (Z Sin Cot); auto.
  - apply (Z Cos Tan); auto.
  - apply (Z Sin Cot); auto.
Qed.
Lemma tabulate q : (exists z, (q * 6 == inject_Z z)%Q) \/ (exists z, (q * 4 == inject_Z z)%Q) -> exists p, tabulated q p.
Proof.
  intros [(z & E)|(z & E)].
  - pose proof (Z.div_mod z 12 ltac:(lia)) as D. pose proof (Z.mod_pos_bound z 12 ltac:(lia)) as B. set (w := (z / 12)%Z) in *. set (r := (z mod 12)%Z) in *. clearbody w r.
    exists (Qred (inject_Z r / 6)). split.
    + assert (Hr : In r [0;1;2;3;4;5;6;7;8;9;10;11]%Z) by (simpl; lia). cbn [In] in Hr.
      repeat (destruct Hr as [<- | Hr]; [vm_compute; tauto|]). destruct Hr.
    + exists w. rewrite Qred_correct. assert (Ez : (inject_Z z == 12 * inject_Z w + inject_Z r)%Q) by (rewrite D, inject_Z_plus, inject_Z_mult; reflexivity).
      rewrite Ez in E. assert (H : (q == (12 * inject_Z w + inject_Z r) / 6)%Q) by (rewrite <- E; field). rewrite H. field.
  - pose proof (Z.div_mod z 8 ltac:(lia)) as D. pose proof (Z.mod_pos_bound z 8 ltac:(lia)) as B. set (w := (z / 8)%Z) in *. set (r := (z mod 8)%Z) in *. clearbody w r.
    exists (Qred (inject_Z r / 4)). split.
    + assert (Hr : In r [0;1;2;3;4;5;6;7]%Z) by (simpl; lia). cbn [In] in Hr.
      repeat (destruct Hr as [<- | Hr]; [vm_compute; tauto|]). destruct Hr.
    + exists w. rewrite Qred_correct. assert (Ez : (inject_Z z == 8 * inject_Z w + inject_Z r)%Q) by (rewrite D, inject_Z_plus, inject_Z_mult; reflexivity).
      rewrite Ez in E. assert (H : (q == (8 * inject_Z w + inject_Z r) / 4)%Q) by (rewrite <- E; field). rewrite H. field.
Qed.
(** sin, .., cot of every multiple of pi/6 or pi/4 succeeds where the function is defined, and returns a
    trig-free expression whose value is exactly the function's value. *)
Theorem c18_total m f q : (9 <= m)%nat -> is_inverse f = false -> Qred q = q ->
  (exists z, (q * 6 == inject_Z z)%Q) \/ (exists z, (q * 4 == inject_Z z)%Q) -> tdom f (Q2R q * PI) ->
  exists a e, op_mul (PropsC.PF exact_cfg m) (ERat q) EPi = Ok a /\ (forall rho, ev rho a = Q2R q * PI) /\
    k_trig (PropsC.PF exact_cfg m) f a = Ok e /\ no_trig e = true /\ forall rho, wd rho e /\ ev rho e = tev f (Q2R q * PI).
Proof.
  intros Hm Hi Hr Hq D. destruct (tabulate q Hq) as (p & T). pose proof (tdom_good f q p Hi Hr T D) as G. exists (piq q).
  destruct (run_sound f q p (fun _ => 0) Hi Hr T G D) as (e & E & N & _ & _ & _). exists e.
  split; [|split; [intros rho; apply piq_ev|]].
  { replace m with (S (S (m - 2))) by lia. apply mul_pi; auto. eapply tab_not_pi; eauto. }
  split; [|split; [exact N|]].
  - eapply rle_ok; [apply (GF_le (doms f q) exact_cfg 9 m Hm)|exact E].
  - intros rho. destruct (run_sound f q p rho Hi Hr T G D) as (e2 & E2 & _ & W & V & _). rewrite E in E2. injection E2 as <-. auto.
Qed.
Example c18_total_ex : Qred (-17#6) = (-17#6)%Q /\ (exists z, ((-17#6) * 6 == inject_Z z)%Q) /\ tdom Tan (Q2R (-17#6) * PI) /\
  k_trig (PropsC.PF exact_cfg 9) Tan (EProd [ERat (-17#6); EPi]) = Ok (EPow (ERat 3) (ERat (-1#2))).
Proof.
  split; [reflexivity|]. split; [exists (-17)%Z; reflexivity|]. split; [|vm_compute; reflexivity].
  cbn [tdom]. intros H.
  assert (T : tabulated (-17#6) (7#6)) by (split; [simpl; tauto|exists (-2)%Z; reflexivity]).
  destruct (run_sound Cos (-17#6) (7#6) (fun _ => 0) eq_refl eq_refl T eq_refl Logic.I) as (e & E & _ & _ & V & _).
  vm_compute in E. injection E as <-. cbn [tev] in V. rewrite H in V.
  assert (P3 : 0 < ev (fun _ => 0) (EPow (ERat 3) (ERat (1 # 2)))) by (apply surd_pos; reflexivity).
  change (Q2R (-1#2) * (ev (fun _ => 0) (EPow (ERat 3) (ERat (1 # 2))) * 1) = 0) in V. set (x := ev (fun _ => 0) (EPow (ERat 3) (ERat (1 # 2)))) in *. clearbody x. unfold Q2R in V. simpl in V. Lra.lra.
Qed.
