(** * ObjFlat: what in-place flattening and the caches do to a store of objects. *)
From Verif Require Export ObjLib Sem RealLemmas Sound.
Local Open Scope nat_scope.

(** ** Values *)
Definition agg (cls : bool) (l : list R) : R := if cls then Rsum l else Rprod l.
Lemma agg_app cls l m : agg cls (l ++ m) = (if cls then Rplus else Rmult) (agg cls l) (agg cls m).
Proof. destruct cls; simpl; [apply Rsum_app|apply Rprod_app]. Qed.
Definition val (rho : env) (h : store) (a : nat) : R := match den h a with Some e => ev rho e | None => 0%R end.

Lemma val_terms rho cls h a ts : wf h -> terms_if cls h a = Some ts -> val rho h a = agg cls (map (val rho h) ts).
Proof.
  intros W H. apply terms_if_nth in H as (o & Ho & S). destruct (W _ _ Ho) as [K _]. rewrite S in K.
  assert (K' : forall k, In k ts -> k < a) by (destruct cls; exact K).
  unfold val. rewrite (den_unfold h W a o Ho), S.
  assert (KT : skids (mk_terms cls ts) = ts) by now destruct cls. rewrite KT.
  destruct (seqo_some (den h) ts) as (es & E & _).
  { intros k Hk. apply den_total; auto. specialize (K' k Hk). apply nth_some in Ho. lia. }
  rewrite E.
  assert (M : map (ev rho) es = map (fun k => match den h k with Some e => ev rho e | None => 0%R end) ts).
  { apply seqo_inv in E. clear - E. induction E as [|x y l m X Y IH]; simpl; auto. now rewrite X, IH. }
  destruct cls; cbn [mk_terms build_shape ev agg]; now rewrite <- M.
Qed.
Lemma build_ev rho s es es' : map (ev rho) es = map (ev rho) es' ->
  match build_shape s es with Some e => ev rho e | None => 0%R end =
  match build_shape s es' with Some e => ev rho e | None => 0%R end.
Proof.
  intros E. assert (L : List.length es = List.length es') by (rewrite <- (map_length (ev rho) es), E; apply map_length).
  destruct s; cbn [build_shape ev]; try (now rewrite E);
    destruct es as [|e1 [|e2 [|e3 es]]], es' as [|f1 [|f2 [|f3 es']]]; simpl in L; try discriminate; auto;
    simpl in E; injection E; intros; subst; cbn [ev]; congruence.
Qed.
Lemma val_unfold rho h a o : wf h -> nth_error h a = Some o -> exists es,
  map (ev rho) es = map (val rho h) (skids (o_sh o)) /\
  val rho h a = match build_shape (o_sh o) es with Some e => ev rho e | None => 0%R end.
Proof.
  intros W Ho. unfold val at 2. rewrite (den_unfold h W a o Ho). destruct (W _ _ Ho) as [K _].
  destruct (seqo_some (den h) (skids (o_sh o))) as (es & E & _).
  { intros k Hk. apply den_total; auto. specialize (K k Hk). apply nth_some in Ho. lia. }
  rewrite E. exists es. split; auto. apply seqo_inv in E. clear - E.
  induction E as [|x y l m X Y IH]; simpl; auto. unfold val at 1. now rewrite X, IH.
Qed.
Lemma terms_lt cls h a ts : wf h -> terms_if cls h a = Some ts -> forall k, In k ts -> k < a.
Proof. intros W H. apply terms_if_nth in H as (o & Ho & S). destruct (W _ _ Ho) as [K _]. rewrite S in K. destruct cls; exact K. Qed.
Lemma terms_len cls h a ts : terms_if cls h a = Some ts -> a < List.length h.
Proof. intros H. apply terms_if_nth in H as (o & Ho & _). now apply nth_some in Ho. Qed.

(** Replacing the terms of an object by others with the same total. *)
Lemma wf_mk h a cls l : wf h -> (forall k, In k l -> k < a) -> wf (set_sh h a (mk_terms cls l)).
Proof. intros W K. apply wf_set; auto; destruct cls; simpl; auto. Qed.
Lemma val_set rho cls h a ts l : wf h -> terms_if cls h a = Some ts -> (forall k, In k l -> k < a) ->
  agg cls (map (val rho h) l) = agg cls (map (val rho h) ts) ->
  forall b, val rho (set_sh h a (mk_terms cls l)) b = val rho h b.
Proof.
  intros W H K E. assert (W' := wf_mk h a cls l W K). assert (La := terms_len _ _ _ _ H).
  induction b as [b IH] using lt_wf_ind.
  destruct (Nat.lt_ge_cases b (List.length h)) as [Lb|Lb].
  - destruct (Nat.eq_dec a b) as [<-|N].
    + rewrite (val_terms rho cls _ a l W'), (val_terms rho cls h a ts W H), <- E.
      * f_equal. apply map_ext_in. intros k Hk. apply IH. now apply K.
      * rewrite terms_set by auto. now rewrite Nat.eqb_refl.
    + destruct (nth_lt h b Lb) as [o Ho].
      assert (Ho' : nth_error (set_sh h a (mk_terms cls l)) b = Some o).
      { rewrite set_sh_nth. apply Nat.eqb_neq in N. now rewrite N. }
      destruct (val_unfold rho _ b o W' Ho') as (es' & M' & ->). destruct (val_unfold rho h b o W Ho) as (es & M & ->).
      apply build_ev. rewrite M', M. apply map_ext_in. intros k Hk. apply IH. destruct (W _ _ Ho) as [K2 _]. now apply K2.
  - assert (X : forall h0, List.length h0 = List.length h -> val rho h0 b = 0%R).
    { intros h0 L0. unfold val, den. cbn [denf]. destruct (nth_error h0 b) eqn:Z; auto. apply nth_some in Z. lia. }
    rewrite !X; auto. apply set_sh_length.
Qed.

(** ** Flattening *)
Section Flat.
Context (cls : bool).
Definition nocls (h : store) (k : nat) : Prop := terms_if cls h k = None.

Record flat_rel (h h' : store) : Prop := {
  fr_wf : wf h';
  fr_len : List.length h' = List.length h;
  fr_cls : forall b, nocls h b <-> nocls h' b;
  fr_stable : forall b us, terms_if cls h b = Some us -> Forall (nocls h) us -> terms_if cls h' b = Some us;
  fr_keep : forall b, nocls h b -> nth_error h' b = nth_error h b;
  fr_val : forall rho b, val rho h' b = val rho h b;
  fr_cache : map o_cache h' = map o_cache h }.

Lemma flat_rel_refl h : wf h -> flat_rel h h.
Proof. intros W. constructor; auto. reflexivity. Qed.
Lemma flat_rel_trans h1 h2 h3 : flat_rel h1 h2 -> flat_rel h2 h3 -> flat_rel h1 h3.
Proof.
  intros A B. constructor.
  - apply (fr_wf _ _ B).
  - rewrite (fr_len _ _ B). apply (fr_len _ _ A).
  - intros b. rewrite (fr_cls _ _ A). apply (fr_cls _ _ B).
  - intros b us E F. apply (fr_stable _ _ B); [now apply (fr_stable _ _ A)|].
    revert F. apply Forall_impl. intros k. apply (fr_cls _ _ A).
  - intros b N. rewrite (fr_keep _ _ B) by now apply (fr_cls _ _ A). now apply (fr_keep _ _ A).
  - intros rho b. rewrite (fr_val _ _ B). apply (fr_val _ _ A).
  - rewrite (fr_cache _ _ B). apply (fr_cache _ _ A).
Qed.

(** the outcome [l] of flattening [t] *)
Definition outs (h : store) (t : nat) (l : list nat) : Prop :=
  Forall (nocls h) l /\ match terms_if cls h t with None => l = [t] | Some us => us = l end.
Lemma outs_step h h' t l : flat_rel h h' -> outs h t l -> outs h' t l.
Proof.
  intros R [F E]. split.
  - revert F. apply Forall_impl. intros k. apply (fr_cls _ _ R).
  - destruct (terms_if cls h t) as [us|] eqn:T.
    + subst us. now rewrite (fr_stable _ _ R t l).
    + apply (fr_cls _ _ R) in T. unfold nocls in T. now rewrite T.
Qed.
Lemma outs_le h t l : wf h -> outs h t l -> forall k, In k l -> k <= t.
Proof.
  intros W [_ E] k Hk. destruct (terms_if cls h t) as [us|] eqn:T.
  - subst. apply (terms_lt _ _ _ _ W T) in Hk. lia.
  - subst. destruct Hk as [<-|[]]. auto.
Qed.
Lemma outs_val rho h t l : wf h -> outs h t l -> val rho h t = agg cls (map (val rho h) l).
Proof.
  intros W [_ E]. destruct (terms_if cls h t) as [us|] eqn:T.
  - subst. now apply val_terms.
  - subst. destruct cls; simpl; ring.
Qed.

Lemma flats_spec n : (forall h t h' l, wf h -> t < n -> t < List.length h -> flat1 cls n h t = (h', l) ->
    flat_rel h h' /\ outs h' t l) ->
  forall ts h h' l, wf h -> (forall t, In t ts -> t < n /\ t < List.length h) -> flats (flat1 cls n) h ts = (h', l) ->
    flat_rel h h' /\ exists ls, Forall2 (outs h') ts ls /\ l = List.concat ls.
Proof.
  intros H1. induction ts as [|t ts IH]; cbn [flats]; intros h h' l W B E.
  - injection E as <- <-. split; [now apply flat_rel_refl|]. exists []. split; auto.
  - destruct (flat1 cls n h t) as [h1 l1] eqn:E1. destruct (flats (flat1 cls n) h1 ts) as [h2 l2] eqn:E2. injection E as <- <-.
    destruct (B t (or_introl eq_refl)) as [B1 B2].
    destruct (H1 _ _ _ _ W B1 B2 E1) as [R1 O1]. assert (W1 := fr_wf _ _ R1).
    destruct (IH h1 h2 l2 W1) as (R2 & ls & F & ->); auto.
    { intros u Hu. rewrite (fr_len _ _ R1). apply B. now right. }
    split; [eapply flat_rel_trans; eauto|]. exists (l1 :: ls). split; auto. constructor; auto. eapply outs_step; eauto.
Qed.

Lemma concat_val rho h ts ls : wf h -> Forall2 (outs h) ts ls ->
  agg cls (map (val rho h) (List.concat ls)) = agg cls (map (val rho h) ts).
Proof.
  intros W. induction 1 as [|t l ts ls O F IH]; auto. cbn [List.concat map].
  rewrite map_app, agg_app, IH, <- (outs_val rho h t l W O). destruct cls; reflexivity.
Qed.
Lemma concat_nocls h ts ls : Forall2 (outs h) ts ls -> Forall (nocls h) (List.concat ls).
Proof. induction 1 as [|t l ts ls [O _] F IH]; simpl; [constructor|]. apply Forall_app. auto. Qed.
Lemma concat_le h ts ls b : wf h -> Forall2 (outs h) ts ls -> (forall t, In t ts -> t < b) ->
  forall k, In k (List.concat ls) -> k < b.
Proof.
  intros W. induction 1 as [|t l ts ls O F IH]; simpl; intros B k Hk; [tauto|]. apply in_app_or in Hk as [Hk|Hk].
  - pose proof (outs_le h t l W O k Hk). specialize (B t (or_introl eq_refl)). lia.
  - apply IH; auto.
Qed.

Lemma set_cache_map h a s : map o_cache (set_sh h a s) = map o_cache h.
Proof. unfold set_sh. revert a. induction h as [|o h IH]; intros [|a]; simpl; auto. now rewrite IH. Qed.

Lemma flat1_spec n : forall h t h' l, wf h -> t < n -> t < List.length h -> flat1 cls n h t = (h', l) ->
  flat_rel h h' /\ outs h' t l.
Proof.
  induction n as [|n IH]; [lia|]. intros h t h' l W Ht Lt E. cbn [flat1] in E.
  destruct (terms_if cls h t) as [ts|] eqn:T.
  - destruct (flats (flat1 cls n) h ts) as [h1 l1] eqn:F. injection E as <- <-.
    assert (K := terms_lt _ _ _ _ W T).
    destruct (flats_spec n IH ts h h1 l1 W) as (R & ls & O & ->); auto.
    { intros u Hu. specialize (K u Hu). lia. }
    assert (W1 := fr_wf _ _ R).
    assert (T1 : exists us, terms_if cls h1 t = Some us).
    { destruct (terms_if cls h1 t) eqn:X; eauto. apply (fr_cls _ _ R) in X. unfold nocls in X. congruence. }
    destruct T1 as [us T1].
    assert (KL := concat_le h1 ts ls t W1 O K).
    assert (NC := concat_nocls _ _ _ O).
    set (l := List.concat ls) in *. set (h2 := set_sh h1 t (mk_terms cls l)).
    assert (L1 : t < List.length h1) by (rewrite (fr_len _ _ R); auto).
    assert (TS : forall b, terms_if cls h2 b = if Nat.eqb t b then Some l else terms_if cls h1 b) by (intros; now apply terms_set).
    assert (NCB : forall b, nocls h1 b <-> nocls h2 b).
    { intros b. unfold nocls. rewrite TS. destruct (Nat.eqb_spec t b); [subst; rewrite T1; split; discriminate|tauto]. }
    (* the value of t has not changed in h1, so its new terms have the same total as the old ones *)
    assert (V : forall rho, agg cls (map (val rho h1) l) = agg cls (map (val rho h1) us)).
    { intros rho. rewrite <- (val_terms rho cls h1 t us W1 T1), (fr_val _ _ R), (val_terms rho cls h t ts W T).
      unfold l. rewrite (concat_val rho h1 ts ls W1 O). f_equal. apply map_ext. intros b. apply (fr_val _ _ R). }
    split.
    + constructor.
      * apply wf_mk; auto.
      * unfold h2. rewrite set_sh_length. apply (fr_len _ _ R).
      * intros b. rewrite (fr_cls _ _ R). apply NCB.
      * intros b vs E Fv. rewrite TS. destruct (Nat.eqb_spec t b) as [<-|N].
        -- assert (vs = ts) by congruence. subst vs. f_equal.
           assert (G : Forall2 (fun k l => l = [k]) ts ls).
           { clear - O Fv R. revert Fv. induction O as [|k l ts ls [_ Ok] F IH]; intros Fv; constructor; inversion Fv; subst; auto.
             match goal with H : nocls h k |- _ => apply (fr_cls _ _ R) in H; unfold nocls in H; now rewrite H in Ok end. }
           unfold l. clear - G. induction G as [|k l ts ls -> G IH]; simpl; auto. now rewrite IH.
        -- now apply (fr_stable _ _ R).
      * intros b N. unfold h2. rewrite set_sh_nth. destruct (Nat.eqb_spec t b) as [<-|Nb].
        -- unfold nocls in N. congruence.
        -- now apply (fr_keep _ _ R).
      * intros rho b. unfold h2. rewrite (val_set rho cls h1 t us l W1 T1 KL (V rho)). apply (fr_val _ _ R).
      * unfold h2. rewrite set_cache_map. apply (fr_cache _ _ R).
    + split.
      * revert NC. apply Forall_impl. intros k. apply NCB.
      * rewrite TS, Nat.eqb_refl. reflexivity.
  - injection E as <- <-. split; [now apply flat_rel_refl|]. split; [constructor; auto|]. now rewrite T.
Qed.

Lemma flatten_spec h ts h' l : wf h -> (forall t, In t ts -> t < List.length h) -> flatten cls h ts = (h', l) ->
  flat_rel h h' /\ exists ls, Forall2 (outs h') ts ls /\ l = List.concat ls.
Proof.
  intros W B E. apply (flats_spec (S (List.length h)) (flat1_spec _) ts h h' l W); auto. intros u Hu. specialize (B u Hu). lia.
Qed.

(** In a flat store nothing changes. *)
Definition flatc (h : store) : Prop := forall a ts, terms_if cls h a = Some ts -> forall t, In t ts -> nocls h t.
Lemma flat1_nocls n h t : nocls h t -> flat1 cls n h t = (h, [t]).
Proof. intros N. destruct n; auto. cbn [flat1]. unfold nocls in N. now rewrite N. Qed.
Lemma flats_nocls n h ts : (forall t, In t ts -> nocls h t) -> flats (flat1 cls n) h ts = (h, ts).
Proof.
  induction ts as [|t ts IH]; intros N; auto. cbn [flats]. rewrite flat1_nocls by (apply N; now left).
  rewrite IH; auto. intros u Hu. apply N. now right.
Qed.
Lemma flat1_id n h t : flatc h -> fst (flat1 cls n h t) = h.
Proof.
  intros F. destruct n as [|n]; auto. cbn [flat1]. destruct (terms_if cls h t) as [ts|] eqn:T; auto.
  rewrite (flats_nocls n h ts) by (intros; eapply F; eauto). simpl. now apply set_sh_id.
Qed.
Lemma flats_id n h ts : flatc h -> fst (flats (flat1 cls n) h ts) = h.
Proof.
  intros F. induction ts as [|t ts IH]; auto. cbn [flats]. pose proof (flat1_id n h t F) as E.
  destruct (flat1 cls n h t) as [h1 l1]. simpl in E. subst h1. destruct (flats (flat1 cls n) h ts) as [h2 l2]. exact IH.
Qed.
Lemma flatten_id h ts : flatc h -> fst (flatten cls h ts) = h.
Proof. apply flats_id. Qed.
End Flat.
