(** * PropsQ: expressions as Python objects (C81: they are not changed by use; C82: caches never show). *)
From Verif Require Import ObjFlat Oracle PropsB PropsC PropsG PropsI Sem FMono CalcSound.
Local Open Scope nat_scope.

(** ** Caches *)
Lemma nodup_l (l m : list string) : nodup string_dec (nodup string_dec l ++ m) = nodup string_dec (l ++ m).
Proof.
  induction l as [|x l IH]; auto. cbn [nodup app]. destruct (in_dec string_dec x l) as [I|N].
  - rewrite IH. destruct (in_dec string_dec x (l ++ m)) as [_|C]; auto. destruct C. apply in_or_app. auto.
  - cbn [app nodup]. rewrite IH.
    assert (Eq : In x (nodup string_dec l ++ m) <-> In x (l ++ m)) by (rewrite !in_app_iff, nodup_In; tauto).
    destruct (in_dec string_dec x (nodup string_dec l ++ m)), (in_dec string_dec x (l ++ m)); tauto.
Qed.
Lemma nodup_r (l m : list string) : nodup string_dec (l ++ nodup string_dec m) = nodup string_dec (l ++ m).
Proof.
  induction l as [|x l IH]; simpl.
  - induction m as [|x m IH]; auto. cbn [nodup]. destruct (in_dec string_dec x m) as [I|N]; auto.
    cbn [nodup]. destruct (in_dec string_dec x (nodup string_dec m)) as [I|_]; [|now f_equal]. apply nodup_In in I. tauto.
  - rewrite IH.
    assert (Eq : In x (l ++ nodup string_dec m) <-> In x (l ++ m)) by (rewrite !in_app_iff, nodup_In; tauto).
    destruct (in_dec string_dec x (l ++ nodup string_dec m)), (in_dec string_dec x (l ++ m)); tauto.
Qed.
Lemma nodup_concat {A} (f : A -> list string) l :
  nodup string_dec (List.concat (map (fun x => nodup string_dec (f x)) l)) = nodup string_dec (flat_map f l).
Proof.
  induction l as [|x l IH]; auto. cbn [map List.concat flat_map]. now rewrite nodup_l, <- nodup_r, IH, nodup_r.
Qed.

Section Caches.
Context (fk : fkern) (n : nat).
Notation answer := (answer fk n).
Notation call := (call fk n).

Definition recursive (q : query) : bool := match q with QSymbols | QAnys => true | _ => false end.
Lemma answer_build q s es e : recursive q = true -> leaf_shape s -> build_shape s es = Some e ->
  Ok (ANames (nodup string_dec (own q s ++ List.concat (map (fun e => names_of (answer q e)) es)))) = answer q e.
Proof.
  intros Hq L B. destruct q; try discriminate; destruct s as [x|ts|ts|b0 x0|i0 b0|f i0|i0];
    cbn [build_shape] in B;
    try (destruct es as [|e1 [|e2 [|e3 es]]]; try discriminate); injection B as <-;
    cbn [Objects.answer own names_of app symbols names any_names]; unfold symbols; cbn [names any_names];
    try (rewrite nodup_concat; reflexivity);
    try (cbn [map List.concat]; rewrite ?app_nil_r, ?nodup_l, ?nodup_r, ?nodup_l; try reflexivity;
         now rewrite (nodup_r []));
    try (cbn [map List.concat]; now rewrite nodup_l, app_nil_r);
    destruct x; try destruct L; reflexivity.
Qed.

Definition sound (h : store) : Prop :=
  forall a o k r, nth_error h a = Some o -> find_ans k (o_cache o) = Some r ->
  exists e, den h a = Some e /\ answer k e = Ok r.
Definition good (q : query) : Prop := q <> QNesting (Some ""%string).
Lemma good_key q : good q -> key q = q.
Proof. intros G. destruct q as [| |[[|c s]|]| | | | | |]; auto. now destruct G. Qed.

Lemma remember_same h a q r : same h (remember h a q r).
Proof. unfold remember. destruct (nth_error h a); [|apply same_refl]. now apply upd_same_shape. Qed.
Lemma remember_sound h a q r e : sound h -> good q -> den h a = Some e -> answer q e = Ok r -> sound (remember h a q r).
Proof.
  intros S G D A b o k r' Ho F. rewrite <- (den_same h) by apply remember_same.
  unfold remember, set_cache in Ho. destruct (nth_error h a) as [p|] eqn:P; [|now apply (S b o)].
  destruct (Nat.eq_dec a b) as [<-|N].
  - rewrite (upd_obj_same _ _ _ _ P) in Ho. injection Ho as <-. cbn [o_cache find_ans] in F.
    rewrite good_key in F by auto. destruct (query_eq_dec q k) as [->|_]; [|now apply (S a p)].
    injection F as <-. eauto.
  - rewrite upd_obj_other in Ho by auto. now apply (S b o).
Qed.

Lemma call_spec q (Hq : good q) : forall m h a h' r, wf h -> sound h -> a < m -> a < List.length h ->
  call m q h a = (h', r) -> same h h' /\ sound h' /\ exists e, den h a = Some e /\ r = answer q e.
Proof.
  induction m as [|m IH]; [lia|]. intros h a h' r W S Ha La E. cbn [Objects.call] in E.
  destruct (nth_lt h a La) as [o Ho]. rewrite Ho in E. rewrite (good_key q Hq) in E.
  destruct (find_ans q (o_cache o)) as [r0|] eqn:F.
  { injection E as <- <-. split; [apply same_refl|]. split; auto. destruct (S a o q r0 Ho F) as (e & D & A). eauto. }
  destruct (recursive q) eqn:Rq.
  - assert (E' : (let '(h', rs) := thread (call m q) h (skids (o_sh o)) in
                  let r := ANames (nodup string_dec (own q (o_sh o) ++ List.concat (map names_of rs))) in
                  (remember h' a q r, Ok r)) = (h', r)) by (destruct q; try discriminate; exact E).
    clear E. destruct (thread (call m q) h (skids (o_sh o))) as [h1 rs] eqn:T.
    destruct (W a o Ho) as [K L].
    assert (TH : forall l h0 h2 rs0, wf h0 -> sound h0 -> (forall k, In k l -> k < a) -> a < List.length h0 ->
      thread (call m q) h0 l = (h2, rs0) -> same h0 h2 /\ sound h2 /\
      exists es, seqo (map (den h0) l) = Some es /\ rs0 = map (answer q) es).
    { clear T K. induction l as [|k l IHl]; intros h0 h2 rs0 W0 S0 K L0 T; cbn [thread] in T.
      - injection T as <- <-. split; [apply same_refl|]. split; auto. exists []. auto.
      - destruct (call m q h0 k) as [h3 x] eqn:C. destruct (thread (call m q) h3 l) as [h4 xs] eqn:T'. injection T as <- <-.
        assert (Kk := K k (or_introl eq_refl)).
        destruct (IH h0 k h3 x W0 S0) as (E3 & S3 & e & De & ->); auto; try lia.
        destruct (IHl h3 h4 xs) as (E4 & S4 & es & Ds & ->); auto.
        + now apply (wf_same h0).
        + intros j Hj. apply K. now right.
        + now rewrite <- (same_len _ _ E3).
        + split; [eapply same_trans; eauto|]. split; auto. exists (e :: es). cbn [map seqo]. rewrite De.
          rewrite (map_ext (den h0) (den h3)) by (intros; now apply den_same). now rewrite Ds. }
    destruct (TH _ _ _ _ W S K La T) as (E1 & S1 & es & Ds & ->).
    destruct (build_total (o_sh o) es) as [e B].
    { apply seqo_inv in Ds. clear - Ds. induction Ds; simpl; auto. }
    assert (De : den h a = Some e) by (rewrite (den_unfold h W a o Ho), Ds; auto).
    rewrite map_map in E'. pose proof (answer_build q (o_sh o) es e Rq L B) as AB.
    injection E' as <- <-. split; [eapply same_trans; [exact E1|apply remember_same]|]. split; [|eauto].
    apply (remember_sound h1 a q _ e); auto. rewrite <- (den_same h h1); auto.
  - destruct (den_total h W a La) as [e De]. rewrite De in E.
    assert (E' : match answer q e with Ok r => (remember h a q r, Ok r) | x => (h, x) end = (h', r))
      by (destruct q; try discriminate; exact E).
    clear E. destruct (answer q e) as [r0|x|s] eqn:A; injection E' as <- <-;
      (split; [first [apply remember_same|apply same_refl]|split; [|eauto]]); auto.
    now apply (remember_sound h a q r0 e).
Qed.
End Caches.

Lemma call_same fk n q m : forall h a, same h (fst (call fk n m q h a)).
Proof.
  induction m as [|m IH]; intros h a; [apply same_refl|]. cbn [call].
  destruct (nth_error h a) as [o|]; [|apply same_refl]. destruct (find_ans (key q) (o_cache o)); [apply same_refl|].
  assert (T : forall l h0, same h0 (fst (thread (call fk n m q) h0 l))).
  { induction l as [|k l IHl]; intros h0; [apply same_refl|]. cbn [thread]. pose proof (IH h0 k) as E1.
    destruct (call fk n m q h0 k) as [h1 x]. pose proof (IHl h1) as E2. destruct (thread (call fk n m q) h1 l) as [h2 xs].
    eapply same_trans; eauto. }
  destruct q; cbn [fst];
    try (specialize (T (skids (o_sh o)) h); destruct (thread _ h (skids (o_sh o))) as [h1 rs]; cbn [fst] in *;
         eapply same_trans; [exact T|apply remember_same]);
    destruct (den h a) as [e|]; try apply same_refl;
    destruct (answer fk n _ e); try apply same_refl; apply remember_same.
Qed.

(** ** Histories *)
Section History.
Context (fk : fkern) (n : nat).
Notation exec1 := (exec1 fk n).
Notation exec := (exec fk n).
Notation answer := (answer fk n).
Notation sound := (sound fk n).

(** A step Python can take without corrupting an object: the fields of a new object are existing objects, and __init__
    is not re-run with new fields on an existing product, sum or logarithm. *)
Definition legal (h : store) (s : step) : Prop :=
  match s with
  | New s => new_ok h s
  | Operands _ ts => forall t, In t ts -> t < List.length h
  | Skip cls t => terms_if cls h t = None
  | LogInit t _ _ => match nth_error h t with Some (mkobj (SLog _ _) _) => False | _ => True end
  | Reinit _ => True
  | Query _ a => a < List.length h
  end.
(** In addition: no sum is created with a sum among its terms, no product with a product, and nesting is not asked for
    a variable without a name. *)
Definition tame (h : store) (s : step) : Prop :=
  legal h s /\
  match s with
  | New (SSum ts) => forall t, In t ts -> terms_if true h t = None
  | New (SProd ts) => forall t, In t ts -> terms_if false h t = None
  | Query q _ => q <> QNesting (Some ""%string)
  | _ => True
  end.
Fixpoint lawful (P : store -> step -> Prop) (h : store) (l : list step) : Prop :=
  match l with [] => True | s :: r => P h s /\ lawful P (exec1 h s) r end.

Lemma lawful_app P h l m : lawful P h (l ++ m) <-> lawful P h l /\ lawful P (exec h l) m.
Proof.
  revert h. induction l as [|s l IH]; intros h; simpl; [tauto|]. rewrite IH. unfold Objects.exec. simpl. tauto.
Qed.

Lemma reinit_same h a : same h (exec1 h (Reinit a)).
Proof. now apply upd_same_shape. Qed.

(** *** Legal steps *)
Lemma same_val rho h h' a : same h h' -> val rho h' a = val rho h a.
Proof. intros E. unfold val. now rewrite (den_same h h'). Qed.
Lemma step_legal h s : wf h -> legal h s ->
  wf (exec1 h s) /\ List.length h <= List.length (exec1 h s) /\
  forall a rho, a < List.length h -> val rho (exec1 h s) a = val rho h a.
Proof.
  intros W L.
  assert (SM : same h (exec1 h s) -> wf (exec1 h s) /\ List.length h <= List.length (exec1 h s) /\
    forall a rho, a < List.length h -> val rho (exec1 h s) a = val rho h a).
  { intros E. split; [now apply (wf_same h)|]. split; [rewrite (same_len _ _ E); auto|]. intros. now apply same_val. }
  destruct s as [s|cls ts|cls t|t i b|a|q a]; try (apply SM; [fail]).
  - cbn [exec1 Objects.exec1 legal] in *. split; [now apply wf_snoc|]. split; [rewrite app_length; lia|].
    intros a rho La. unfold val. now rewrite den_snoc.
  - cbn [Objects.exec1 legal] in *. destruct (flatten cls h ts) as [h' l] eqn:E.
    destruct (flatten_spec cls h ts h' l W L E) as [R _]. simpl. split; [apply (fr_wf _ _ _ R)|].
    split; [rewrite (fr_len _ _ _ R); auto|]. intros a rho _. apply (fr_val _ _ _ R).
  - apply SM. cbn [Objects.exec1 legal] in *. unfold skip_one. rewrite L. apply same_refl.
  - apply SM. cbn [Objects.exec1 legal] in *. unfold log_init. destruct (nth_error h t) as [[[] c]|]; try apply same_refl. destruct L.
  - apply SM, reinit_same.
  - apply SM. apply call_same.
Qed.
Lemma run_legal l : forall h, wf h -> lawful legal h l ->
  wf (exec h l) /\ List.length h <= List.length (exec h l) /\
  forall a rho, a < List.length h -> val rho (exec h l) a = val rho h a.
Proof.
  induction l as [|s l IH]; intros h W L; [auto|]. destruct L as [L1 L2].
  destruct (step_legal h s W L1) as (W1 & Le & V). destruct (IH _ W1 L2) as (W2 & Le2 & V2).
  unfold Objects.exec in *. cbn [fold_left]. split; auto. split; [lia|]. intros a rho La. rewrite V2 by lia. auto.
Qed.

(** *** Tame steps *)
Record inv (h : store) : Prop := {
  inv_wf : wf h; inv_sum : flatc true h; inv_prod : flatc false h; inv_sound : sound h }.

Lemma inv_same h h' : same h h' -> inv h -> sound h' -> inv h'.
Proof.
  intros E I S. constructor; auto.
  - apply (wf_same h); auto. apply (inv_wf _ I).
  - intros a ts T t Ht. unfold nocls. rewrite <- (terms_same true h h') in T |- * by auto. now apply (inv_sum _ I a ts).
  - intros a ts T t Ht. unfold nocls. rewrite <- (terms_same false h h') in T |- * by auto. now apply (inv_prod _ I a ts).
Qed.
Lemma find_filter k c : forall r, find_ans k (filter not_nesting c) = Some r -> find_ans k c = Some r.
Proof.
  induction c as [|[k' r'] c IH]; intros r H; auto. cbn [filter] in H. cbn [find_ans].
  destruct (not_nesting (k', r')) eqn:N.
  - cbn [find_ans] in H. destruct (query_eq_dec k' k); auto.
  - destruct (query_eq_dec k' k) as [->|_]; auto. exfalso. clear - H N. induction c as [|[k2 r2] c IH]; [discriminate|].
    cbn [filter] in H. destruct (not_nesting (k2, r2)) eqn:N2; auto. cbn [find_ans] in H.
    destruct (query_eq_dec k2 k); auto. subst. unfold not_nesting in *. simpl in *. congruence.
Qed.
Lemma flatc_snoc cls h s : wf h -> new_ok h s -> flatc cls h ->
  (forall ts, s = mk_terms cls ts -> forall t, In t ts -> terms_if cls h t = None) ->
  flatc cls (h ++ [mkobj s []]).
Proof.
  intros W N F H a ts T t Ht. unfold nocls. destruct (Nat.lt_ge_cases a (List.length h)) as [La|La].
  - rewrite terms_snoc in T by auto. pose proof (terms_lt _ _ _ _ W T t Ht). rewrite terms_snoc by lia. now apply (F a ts).
  - pose proof (terms_len _ _ _ _ T) as L. rewrite app_length in L. simpl in L. assert (a = List.length h) by lia. subst a.
    apply terms_if_nth in T as (o & Ho & S). rewrite nth_error_app2, Nat.sub_diag in Ho by lia. injection Ho as <-. simpl in S. subst s.
    assert (Lt : t < List.length h) by (apply (proj1 N); destruct cls; exact Ht).
    rewrite terms_snoc by auto. now apply (H ts eq_refl).
Qed.

Lemma step_tame h s : inv h -> tame h s ->
  inv (exec1 h s) /\ List.length h <= List.length (exec1 h s) /\
  forall a, a < List.length h -> den (exec1 h s) a = den h a.
Proof.
  intros I [L T]. assert (W := inv_wf _ I).
  assert (SM : same h (exec1 h s) -> sound (exec1 h s) -> inv (exec1 h s) /\ List.length h <= List.length (exec1 h s) /\
    forall a, a < List.length h -> den (exec1 h s) a = den h a).
  { intros E S. split; [now apply (inv_same h)|]. split; [rewrite (same_len _ _ E); auto|]. intros. symmetry. now apply den_same. }
  assert (ID : exec1 h s = h -> inv (exec1 h s) /\ List.length h <= List.length (exec1 h s) /\
    forall a, a < List.length h -> den (exec1 h s) a = den h a).
  { intros ->. auto. }
  destruct s as [s|cls ts|cls t|t i b|a|q a].
  - cbn [Objects.exec1 legal] in *. assert (D : forall a, a < List.length h -> den (h ++ [mkobj s []]) a = den h a) by (intros; now apply den_snoc).
    split; [|split; [rewrite app_length; lia|auto]]. constructor.
    + now apply wf_snoc.
    + apply flatc_snoc; auto; [apply (inv_sum _ I)|]. intros ts ->. exact T.
    + apply flatc_snoc; auto; [apply (inv_prod _ I)|]. intros ts ->. exact T.
    + intros a o k r Ho F. destruct (Nat.lt_ge_cases a (List.length h)) as [La|La].
      * rewrite D by auto. rewrite nth_snoc_lt in Ho by auto. now apply (inv_sound _ I a o).
      * rewrite nth_error_app2 in Ho by auto. destruct (a - List.length h) as [|[|]]; simpl in Ho; try discriminate.
        injection Ho as <-. discriminate.
  - apply ID. cbn [Objects.exec1]. apply flatten_id. destruct cls; [apply (inv_sum _ I)|apply (inv_prod _ I)].
  - apply ID. cbn [Objects.exec1 legal] in *. unfold skip_one. now rewrite L.
  - apply ID. cbn [Objects.exec1 legal] in *. unfold log_init. destruct (nth_error h t) as [[[] c]|]; auto. destruct L.
  - apply SM; [apply reinit_same|]. intros b o k r Ho F. rewrite <- (den_same h) by apply reinit_same. cbn [Objects.exec1] in Ho.
    destruct (nth_error h b) as [p|] eqn:P; [|apply nth_some in Ho; rewrite upd_obj_length in Ho; apply nth_error_None in P; lia].
    apply (inv_sound _ I b p); auto. destruct (Nat.eq_dec a b) as [<-|N].
    + rewrite (upd_obj_same _ _ _ _ P) in Ho. injection Ho as <-. cbn [o_cache] in F. now apply find_filter.
    + rewrite upd_obj_other in Ho by auto. congruence.
  - apply SM; [apply call_same|]. cbn [Objects.exec1 legal] in *.
    destruct (call fk n (S (List.length h)) q h a) as [h' r] eqn:C.
    apply (call_spec fk n q T _ _ _ _ _ W (inv_sound _ I)) in C; auto. apply C.
Qed.
Lemma run_tame l : forall h, inv h -> lawful tame h l ->
  inv (exec h l) /\ List.length h <= List.length (exec h l) /\
  forall a, a < List.length h -> den (exec h l) a = den h a.
Proof.
  induction l as [|s l IH]; intros h I L; [auto|]. destruct L as [L1 L2].
  destruct (step_tame h s I L1) as (I1 & Le & V). destruct (IH _ I1 L2) as (I2 & Le2 & V2).
  unfold Objects.exec in *. cbn [fold_left]. split; auto. split; [lia|]. intros a La. rewrite V2 by lia. auto.
Qed.
Lemma inv_nil : inv [].
Proof. constructor; intros [|a]; discriminate. Qed.
Lemma wf_nil : wf [].
Proof. intros [|a]; discriminate. Qed.

(** ** C81 *)
(** Every object stands for a finite expression. *)
Theorem c81_finite l a : lawful legal [] l -> a < List.length (exec [] l) -> exists e, den (exec [] l) a = Some e.
Proof. intros L La. apply den_total; auto. now apply run_legal; [apply wf_nil|]. Qed.

(** Whatever is done afterwards, an object stands for the same expression. *)
Theorem c81_immutable l1 l2 a e : lawful tame [] (l1 ++ l2) ->
  den (exec [] l1) a = Some e -> den (exec [] (l1 ++ l2)) a = Some e.
Proof.
  intros L D. apply lawful_app in L as [L1 L2].
  destruct (run_tame l1 [] inv_nil L1) as (I & _ & _). destruct (run_tame l2 _ I L2) as (_ & _ & V).
  unfold Objects.exec in *. rewrite fold_left_app. rewrite V; auto. now apply den_lt in D.
Qed.

(** Without the flatness condition it keeps its value at every point. *)
Theorem c81_values l1 l2 a e rho : lawful legal [] (l1 ++ l2) ->
  den (exec [] l1) a = Some e -> exists e', den (exec [] (l1 ++ l2)) a = Some e' /\ ev rho e' = ev rho e.
Proof.
  intros L D. apply lawful_app in L as [L1 L2].
  destruct (run_legal l1 [] wf_nil L1) as (W & _ & _). destruct (run_legal l2 _ W L2) as (W2 & Le & V).
  apply den_lt in D as La. unfold Objects.exec in *. rewrite fold_left_app.
  destruct (den_total _ W2 a ltac:(lia)) as [e' D']. exists e'. split; auto.
  specialize (V a rho La). unfold val in V. now rewrite D, D' in V.
Qed.

(** The constructor goes on with the terms that the operands, as they are now, have when flattened. *)
Theorem c81_operands l cls ts h' us : lawful legal [] l -> (forall t, In t ts -> t < List.length (exec [] l)) ->
  flatten cls (exec [] l) ts = (h', us) ->
  exists es, Forall2 (fun t e => den h' t = Some e) ts es /\
    Forall2 (fun t e => den h' t = Some e) us (if cls then flat_sum es else flat_prod es).
Proof.
  intros L B E. assert (W : wf (exec [] l)) by (apply run_legal; auto using wf_nil).
  destruct (flatten_spec cls _ ts h' us W B E) as (R & ls & O & ->). assert (W' := fr_wf _ _ _ R).
  assert (B' : forall t, In t ts -> t < List.length h') by (intros t Ht; rewrite (fr_len _ _ _ R); auto).
  clear E B L W R. induction O as [|t ks ts ls O F IH].
  - exists []. split; [constructor|]. destruct cls; constructor.
  - destruct IH as (es & Des & Dus); [intros; apply B'; now right|].
    destruct (den_total h' W' t) as [e De]; [apply B'; now left|].
    exists (e :: es). split; [constructor; auto|]. cbn [List.concat].
    assert (FL : Forall2 (fun t e => den h' t = Some e) ks (if cls then flat_sum1 e else flat_prod1 e)).
    { assert (NC : forall k x, nocls cls h' k -> den h' k = Some x -> (if cls then flat_sum1 x else flat_prod1 x) = [x]).
      { intros k x N Dx. apply den_lt in Dx as Lk. destruct (nth_lt _ _ Lk) as [o Ho].
        rewrite (den_unfold h' W' k o Ho) in Dx. destruct (seqo _) as [xs|]; [|discriminate].
        unfold nocls, terms_if in N. rewrite Ho in N. destruct (W' _ _ Ho) as [_ Lf].
        destruct (o_sh o) as [lf|us|us|b0 x0|i0 b0|f i0|i0]; cbn [build_shape] in Dx;
          try (destruct xs as [|x1 [|x2 [|x3 xs]]]; try discriminate); try (injection Dx as <-);
          destruct cls; try discriminate; try reflexivity; destruct lf; try destruct Lf; reflexivity. }
      destruct O as [N O]. destruct (terms_if cls h' t) as [us|] eqn:T.
      - subst us. apply terms_if_nth in T as (o & Ho & S). rewrite (den_unfold h' W' t o Ho), S in De.
        assert (KT : skids (mk_terms cls ks) = ks) by now destruct cls. rewrite KT in De.
        destruct (seqo (map (den h') ks)) as [xs|] eqn:X; [|discriminate]. apply seqo_inv in X.
        assert (G : Forall2 (fun t e => den h' t = Some e) ks (flat_map (fun e => if cls then flat_sum1 e else flat_prod1 e) xs)).
        { clear - X N NC. induction X as [|k x ks xs D X IH]; [constructor|]. inversion N; subst. cbn [flat_map].
          rewrite (NC k x) by auto. constructor; auto. }
        destruct cls; cbn [mk_terms build_shape] in De; injection De as <-; exact G.
      - subst ks. rewrite (NC t e T De). constructor; auto. }
    assert (AP : forall (a b : list nat) c d, Forall2 (fun t e => den h' t = Some e) a c ->
      Forall2 (fun t e => den h' t = Some e) b d -> Forall2 (fun t e => den h' t = Some e) (a ++ b) (c ++ d))
      by (intros; now apply Forall2_app).
    destruct cls; cbn [flat_sum flat_prod flat_map]; apply AP; auto.
Qed.

(** ** C82 *)
(** After any tame history, a method returns (or raises) what it would compute afresh for the expression that the
    object stands for. *)
Theorem c82_replies l q a e : lawful tame [] l -> q <> QNesting (Some ""%string) ->
  den (exec [] l) a = Some e -> reply fk n (exec [] l) q a = answer q e.
Proof.
  intros L G D. destruct (run_tame l [] inv_nil L) as (I & _ & _). apply den_lt in D as La. unfold reply.
  destruct (call fk n (S (List.length (exec [] l))) q (exec [] l) a) as [h' r] eqn:C.
  apply (call_spec fk n q G _ _ _ _ _ (inv_wf _ I) (inv_sound _ I)) in C; auto.
  destruct C as (_ & _ & e' & D' & ->). simpl. congruence.
Qed.
(** The answer does not depend on what was asked before. *)
Theorem c82_history_free l m q a b e : lawful tame [] l -> lawful tame [] m -> q <> QNesting (Some ""%string) ->
  den (exec [] l) a = Some e -> den (exec [] m) b = Some e -> reply fk n (exec [] l) q a = reply fk n (exec [] m) q b.
Proof. intros L M G A B. rewrite (c82_replies l q a e), (c82_replies m q b e); auto. Qed.
(** In particular, whatever was asked before: symbols() lists each symbol that occurs, once; the depth is the length of
    the longest chain of subexpressions. *)
Theorem c82_symbols l a e : lawful tame [] l -> den (exec [] l) a = Some e ->
  exists vs, reply fk n (exec [] l) QSymbols a = Ok (ANames vs) /\ NoDup vs /\ forall s, In s vs <-> contains s e = true.
Proof.
  intros L D. exists (symbols e). split; [|split].
  - rewrite (c82_replies l QSymbols a e L) by (auto || discriminate). reflexivity.
  - apply NoDup_nodup.
  - intros s. symmetry. apply contains_symbols.
Qed.
Theorem c82_nesting l a e v : lawful tame [] l -> v <> Some ""%string -> den (exec [] l) a = Some e -> no_empty e -> e <> EInf -> e <> ENegInf ->
  exists k, reply fk n (exec [] l) (QNesting v) a = Ok (ANat k) /\ Chain v e k /\ forall j, Chain v e j -> j <= k.
Proof.
  intros L V D N I J. exists (nesting v e). split; [|apply c65_nesting; auto].
  rewrite (c82_replies l (QNesting v) a e L); auto; [|intros E; apply V; congruence].
  cbn [answer]. now rewrite nestingc_fin by auto.
Qed.
End History.

(** The cached expansion has the value of the expression. *)
Theorem c82_expand dom c (HX : fpow_exact (fpow c)) k n l a e r rho :
  lawful (GF dom c k) n tame [] l -> den (exec (GF dom c k) n [] l) a = Some e -> right_at rho dom -> wd rho e ->
  reply (GF dom c k) n (exec (GF dom c k) n [] l) QExpand a = Ok (AExpr r) -> wd rho r /\ ev rho r = ev rho e.
Proof.
  intros L D R W. rewrite (c82_replies _ n l QExpand a e L) by (auto || discriminate). cbn [answer]. intros H.
  apply bind_ok in H as (x & Hx & H). injection H as <-.
  destruct (c15_expand c HX dom k k (le_n k) n rho e x R W Hx) as (_ & A & B). auto.
Qed.

(** ** What goes wrong outside the hypotheses *)
Local Notation sx := (ESym "x"%string).
Local Notation sy := (ESym "y"%string).
Definition built : list step :=
  [New (SLeaf (ESym "x")); New (SLeaf (ERat 2)); New (SSum [0; 1]); New (SLeaf (ESym "y")); New (SSum [2; 3]);
   New (SSum [0; 1]); New (SSum [5; 3])].
Definition nested : expr := ESum [ESum [sx; ERat 2]; sy].

(** y + 3*(x+2) - 2*(x+2) has a sum among its terms (C09).  Two such objects are equal; adding 2 to the first changes
    the first, and they are no longer equal. *)
Theorem c81_flatten_refuted : forall fk n,
  let h := exec fk n [] built in
  let h' := exec fk n [] (built ++ [Operands true [4; 1]]) in
  (let k := K exact_cfg 9 in exists a b d r,
    op_add k sx (ERat 2) = Ok a /\ op_mul k (ERat 3) a = Ok b /\ op_mul k (ERat 2) a = Ok d /\
    op_add k sy b = Ok r /\ op_sub k r d = Ok nested) /\
  lawful fk n legal [] (built ++ [Operands true [4; 1]]) /\
  den h 4 = Some nested /\ den h 6 = Some nested /\ eeqb nested nested = true /\
  den h' 4 = Some (ESum [sx; ERat 2; sy]) /\ den h' 6 = Some nested /\ eeqb (ESum [sx; ERat 2; sy]) nested = false.
Proof.
  intros fk n h h'. split.
  { exists (ESum [sx; ERat 2]), (EProd [ERat 3; ESum [sx; ERat 2]]), (EProd [ERat 2; ESum [sx; ERat 2]]),
      (ESum [EProd [ERat 3; ESum [sx; ERat 2]]; sy]). repeat split; vm_compute; reflexivity. }
  split; [|repeat split; vm_compute; reflexivity].
  cbn. repeat split; auto; unfold new_ok; cbn; repeat split; auto; intros; lia.
Qed.

(** Its depth is computed once; after the change the remembered depth is that of the old tree. *)
Theorem c82_stale_refuted : forall fk n,
  let l := built ++ [Query (QNesting None) 4; Operands true [4; 1]; New (SSum [0; 1; 3])] in
  lawful fk n legal [] l /\
  den (exec fk n [] l) 4 = den (exec fk n [] l) 7 /\
  reply fk n (exec fk n [] l) (QNesting None) 4 = Ok (ANat 3) /\
  reply fk n (exec fk n [] l) (QNesting None) 7 = Ok (ANat 2).
Proof.
  intros fk n l. split; [|repeat split; vm_compute; reflexivity].
  cbn. repeat split; auto; unfold new_ok; cbn; repeat split; auto; intros; lia.
Qed.

(** (3/4)^(1/4) squared times x has a product among its factors (C09).  remove_const_factor - called when terms are
    sorted - calls Prod([inner], skip_checks=True): an AssertionError, and from then on the inner product is its own
    factor and neither object stands for an expression. *)
Definition corrupt_prod : list step :=
  [New (SLeaf (ERat (1 # 2))); New (SLeaf (ERat 3)); New (SPow 1 0); New (SProd [0; 2]); New (SLeaf (ESym "x"));
   New (SProd [3; 4])].
Theorem c81_skip_refuted : forall fk n,
  let e := EProd [EProd [ERat (1 # 2); EPow (ERat 3) (ERat (1 # 2))]; sx] in
  (let k := K exact_cfg 9 in exists s, op_pow k (ERat (3#4)) (ERat (1#4)) = Ok s /\ k_prod k [s; s; sx] = Ok e) /\
  rcf e = Raise SelfInit /\
  lawful fk n legal [] corrupt_prod /\ den (exec fk n [] corrupt_prod) 5 = Some e /\
  let h' := exec fk n [] (corrupt_prod ++ [Skip false 3]) in
  forall m, denf m h' 3 = None /\ denf m h' 5 = None.
Proof.
  intros fk n e. split; [eexists; split; [vm_compute; reflexivity|vm_compute; reflexivity]|]. split; [vm_compute; reflexivity|].
  split; [cbn; repeat split; auto; unfold new_ok; cbn; repeat split; auto; intros; lia|].
  split; [vm_compute; reflexivity|]. intros h' m.
  assert (A : forall m, denf m h' 3 = None).
  { induction m0 as [|m0 IH]; auto. cbn [denf]. change (nth_error h' 3) with (Some (mkobj (SProd [3]) [])).
    cbn [o_sh skids map]. now rewrite IH. }
  split; auto. destruct m as [|m]; auto. cbn [denf]. change (nth_error h' 5) with (Some (mkobj (SProd [3; 4]) [])).
  cbn [o_sh skids map]. now rewrite A.
Qed.

(** log(2^log(y), 2) returns the exponent, the object log(y), and re-initialises it with the arguments of the outer
    call: log(y) and 2^log(y) are now each other's descendants. *)
Definition corrupt_log : list step :=
  [New (SLeaf (ERat 2)); New (SLeaf (ESym "y")); New (SLeaf EE); New (SLog 1 2); New (SPow 0 3)].
Theorem c81_log_refuted : forall fk n,
  let e := EPow (ERat 2) (ELog sy EE) in
  k_pow (K exact_cfg 9) (ERat 2) (ELog sy EE) = Ok e /\ mk_log exact_cfg e (ERat 2) = Stop Cycle /\
  lawful fk n legal [] corrupt_log /\
  den (exec fk n [] corrupt_log) 3 = Some (ELog sy EE) /\ den (exec fk n [] corrupt_log) 4 = Some e /\
  let h' := exec fk n [] (corrupt_log ++ [LogInit 3 4 0]) in
  forall m, denf m h' 3 = None /\ denf m h' 4 = None.
Proof.
  intros fk n e. split; [vm_compute; reflexivity|]. split; [vm_compute; reflexivity|].
  split; [cbn; repeat split; auto; unfold new_ok; cbn; repeat split; auto; intros; lia|].
  split; [vm_compute; reflexivity|]. split; [vm_compute; reflexivity|]. intros h' m.
  induction m as [|m [A B]]; auto. split.
  - cbn [denf]. change (nth_error h' 3) with (Some (mkobj (SLog 4 0) [])). cbn [o_sh skids map]. now rewrite B.
  - cbn [denf]. change (nth_error h' 4) with (Some (mkobj (SPow 0 3) [])). cbn [o_sh skids map]. rewrite A.
    destruct (denf m h' 0); reflexivity.
Qed.

(** A checker for the hypotheses *)
Definition leafb (s : shape) : bool :=
  match s with
  | SLeaf (ERat _ | EPi | EE | EInf | ENegInf | ESym _ | EAny _) => true
  | SLeaf _ => false
  | _ => true
  end.
Definition nob (cls : bool) (h : store) (t : nat) : bool := match terms_if cls h t with None => true | _ => false end.
Definition tameb (h : store) (s : step) : bool :=
  match s with
  | New s => forallb (fun k => Nat.ltb k (List.length h)) (skids s) && leafb s &&
             match s with SSum ts => forallb (nob true h) ts | SProd ts => forallb (nob false h) ts | _ => true end
  | Operands _ ts => forallb (fun k => Nat.ltb k (List.length h)) ts
  | Skip cls t => nob cls h t
  | LogInit t _ _ => match nth_error h t with Some (mkobj (SLog _ _) _) => false | _ => true end
  | Reinit _ => true
  | Query q a => Nat.ltb a (List.length h) && if query_eq_dec q (QNesting (Some ""%string)) then false else true
  end.
Fixpoint all_tame fk n (h : store) (l : list step) : bool :=
  match l with [] => true | s :: r => tameb h s && all_tame fk n (exec1 fk n h s) r end.
Lemma tameb_ok fk n l : forall h, all_tame fk n h l = true -> lawful fk n tame h l.
Proof.
  assert (B : forall (h : store) ts, forallb (fun k => Nat.ltb k (List.length h)) ts = true -> forall k, In k ts -> k < List.length h).
  { intros h ts H k Hk. rewrite forallb_forall in H. apply Nat.ltb_lt, H, Hk. }
  assert (N : forall cls h ts, forallb (nob cls h) ts = true -> forall t, In t ts -> terms_if cls h t = None).
  { intros cls h ts H t Ht. rewrite forallb_forall in H. specialize (H t Ht). unfold nob in H. now destruct (terms_if cls h t). }
  induction l as [|s l IH]; intros h H; simpl; auto. cbn [all_tame] in H. apply andb_prop in H as [H1 H2]. split; auto.
  destruct s as [s|cls ts|cls t|t i b|a|q a]; cbn [tameb] in H1.
  - apply andb_prop in H1 as [H1 Hf]. apply andb_prop in H1 as [Hk Hl]. split.
    + split; [now apply B|]. destruct s as [e| | | | | |]; simpl; auto. destruct e; simpl in *; auto; discriminate.
    + destruct s; auto; now apply N.
  - split; auto. simpl. now apply B.
  - split; auto. simpl. unfold nob in H1. now destruct (terms_if cls h t).
  - split; auto. simpl. destruct (nth_error h t) as [[[] c]|]; auto; discriminate H1.
  - split; simpl; auto.
  - apply andb_prop in H1 as [H1 Hq]. split; [now apply Nat.ltb_lt|]. destruct (query_eq_dec q _); [discriminate|auto].
Qed.

(** ** A tame history: 3*x^2*(x + y) + x + y, with x + y shared, questions asked in between. *)
Definition tame_example : list step :=
  [New (SLeaf (ESym "x")); New (SLeaf (ESym "y")); New (SSum [0; 1]); Query QSymbols 2; New (SLeaf (ERat 2));
   New (SPow 0 3); New (SLeaf (ERat 3)); New (SProd [5; 4; 2]); Query (QNesting (Some "x"%string)) 6;
   Operands true [6; 2]; New (SSum [6; 0; 1]); Query QSymbols 7; Query (QNesting None) 7; Reinit 2;
   Operands true [7; 5]; Query QDeconProd 6].
Theorem c81_example : forall fk n,
  lawful fk n tame [] tame_example /\
  den (exec fk n [] tame_example) 7 =
    Some (ESum [EProd [ERat 3; EPow sx (ERat 2); ESum [sx; sy]]; sx; sy]) /\
  reply fk n (exec fk n [] tame_example) QSymbols 7 = Ok (ANames ["x"%string; "y"%string]) /\
  reply fk n (exec fk n [] tame_example) (QNesting None) 7 = Ok (ANat 4).
Proof.
  intros fk n. split; [|repeat split; vm_compute; reflexivity].
  apply tameb_ok. vm_compute. reflexivity.
Qed.
(** expand() of the object for (x+y)^2, asked twice. *)
Definition expand_example : list step :=
  [New (SLeaf sx); New (SLeaf sy); New (SSum [0; 1]); New (SLeaf (ERat 2)); New (SPow 2 3); Query QExpand 4].
Example c82_expand_ex : let fk := GF (fun _ => true) exact_cfg 12 in
  lawful fk 9 tame [] expand_example /\
  den (exec fk 9 [] expand_example) 4 = Some (EPow (ESum [sx; sy]) (ERat 2)) /\
  reply fk 9 (exec fk 9 [] expand_example) QExpand 4 =
    Ok (AExpr (ESum [EPow sy (ERat 2); EPow sx (ERat 2); EProd [ERat 2; sx; sy]])).
Proof.
  intros fk. split; [apply tameb_ok; vm_compute; reflexivity|]. split; vm_compute; reflexivity.
Qed.
