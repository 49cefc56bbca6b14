(** * HerSearch: which symbols the integrands and solutions of the search tree mention.

    [PF S e] stands for "e mentions only symbols of S" (possibly with a further hereditary property).
    A node may mention the symbols of [S0], its own variable and the variables of the nodes above it;
    undoing a substitution removes the variable of the child. *)
From Coquelicot Require Import Coquelicot.
From Verif Require Export HerTrans Shape.
Close Scope R_scope.
Open Scope nat_scope.

(** the variables a node may use *)
Inductive vis (h : heap) : nat -> string -> Prop :=
| vis_here i q : nth_error h i = Some q -> vis h i (nd_v q)
| vis_up i q p s : nth_error h i = Some q -> nd_p q = Some p -> vis h p s -> vis h i s.

Definition is_usub (t : option tr) : bool := match t with Some (TUSub _ _) => true | _ => false end.

Lemma core_inv q r : core q = core r -> nd_e q = nd_e r /\ nd_v q = nd_v r /\ nd_t q = nd_t r /\ nd_p q = nd_p r.
Proof. unfold core. intros H. injection H. auto. Qed.
Lemma vis_ext h h' i s : ext h h' -> vis h i s -> vis h' i s.
Proof.
  intros E. induction 1 as [i q H|i q p s H Hp _ IH]; destruct (E _ _ H) as (q' & H' & C); apply core_inv in C as (_ & C2 & _ & C4).
  - rewrite <- C2. now constructor.
  - eapply vis_up; eauto. congruence.
Qed.
Lemma vis_inv h i q s : nth_error h i = Some q -> vis h i s -> s = nd_v q \/ exists p, nd_p q = Some p /\ vis h p s.
Proof. intros H V. inversion V; subst; [left|right; exists p]; replace q with q0 by congruence; auto. Qed.
Lemma ext_setn h i f : (forall q, core (f q) = core q) -> ext h (setn h i f).
Proof.
  intros Hf j q H. rewrite nth_setn, H. destruct (Nat.eqb i j); cbn; [|eauto]. exists (f q). auto.
Qed.
Lemma ext_append h p cs : ext h (append h p cs).
Proof. intros j q H. destruct (append_old h p cs j q H) as (q' & H' & C & _). eauto. Qed.
Lemma ext_trans a b c : ext a b -> ext b c -> ext a c.
Proof. intros H1 H2 i q H. destruct (H1 _ _ H) as (q' & H' & C). destruct (H2 _ _ H') as (q'' & H'' & C'). exists q''. split; auto. congruence. Qed.
Lemma ext_prim h h' : prim h h' -> ext h h'.
Proof.
  intros H. destruct H; try (now apply ext_setn); [|apply ext_append].
  eapply ext_trans; apply ext_setn; auto.
Qed.
Lemma ext_grow h h' : grow h h' -> ext h h'.
Proof. induction 1; [intros i q H; eauto|]. eapply ext_trans; eauto using ext_prim. Qed.

Section Search.
Context (PF : (string -> Prop) -> expr -> Prop) (HPF : forall S, HerF (PF S)).
Context (PFm : forall (S S' : string -> Prop) e, (forall s, S s -> S' s) -> PF S e -> PF S' e).
Context (PFs : forall (S : string -> Prop) s, PF S (ESym s) <-> S s).
Context (fk : fkern) (HF : forall S, FHer (PF S) fk).
Context (Heq : forall s, k_eq fk (ESym s) (ESym s) <> Ok false).
Context (rng : string -> expr -> bool) (nm : nat -> string) (n : nat).
Let HK S := fh_kern _ _ (HF S).
Let HKr S := fh_raw _ _ (HF S).

Section Root.
Context (S0 : string -> Prop).
Definition sc (h : heap) (i : nat) (s : string) : Prop := S0 s \/ vis h i s.
Lemma sc_ext h h' i s : ext h h' -> sc h i s -> sc h' i s.
Proof. intros E [H|H]; [now left|right]. eapply vis_ext; eauto. Qed.

Record nodeok (h : heap) (i : nat) (q : node) : Prop := {
  no_e : PF (sc h i) (nd_e q);
  no_s : forall s, nd_sol q = Some s -> PF (sc h i) s;
  no_t : match nd_t q with
         | Some (TPull c) => PF (sc h i) c
         | Some (TUSub _ u) => forall p, nd_p q = Some p -> PF (sc h p) u
         | _ => True
         end;
  no_v : is_usub (nd_t q) = false -> forall p, nd_p q = Some p -> exists m, nth_error h p = Some m /\ nd_v m = nd_v q }.
Definition INV (h : heap) : Prop := forall i q, nth_error h i = Some q -> nodeok h i q.

Lemma sc_here h i q : nth_error h i = Some q -> sc h i (nd_v q).
Proof. intros H. right. now constructor. Qed.
Lemma PF_v h i q : nth_error h i = Some q -> PF (sc h i) (ESym (nd_v q)).
Proof. intros H. apply PFs. now apply sc_here. Qed.

Lemma nodeok_ext h h' i q q' : ext h h' -> nth_error h i = Some q -> nodeok h i q -> core q' = core q ->
  (forall s, nd_sol q' = Some s -> PF (sc h' i) s) -> nodeok h' i q'.
Proof.
  intros E H [A1 A2 A3 A4] C Hs. apply core_inv in C as (C1 & C2 & C3 & C4). constructor.
  - rewrite C1. eapply PFm; [|exact A1]. intros s. now apply sc_ext.
  - exact Hs.
  - rewrite C3. destruct (nd_t q) as [[c| |k u|k]|]; auto.
    + eapply PFm; [|exact A3]. intros s. now apply sc_ext.
    + intros p Hq. eapply PFm; [|apply (A3 p); congruence]. intros s. now apply sc_ext.
  - rewrite C2, C3, C4. intros U p Hq. destruct (A4 U p Hq) as (m & Hm & Ev). destruct (E _ _ Hm) as (m' & Hm' & Cm).
    apply core_inv in Cm as (_ & Cm & _). exists m'. split; auto. congruence.
Qed.

Lemma INV_set h i f : (forall q, core (f q) = core q) ->
  (forall q s, nth_error h i = Some q -> nd_sol (f q) = Some s -> PF (sc h i) s) -> INV h -> INV (setn h i f).
Proof.
  intros Hf Hs HI j q H. pose proof (ext_setn h i f Hf) as E.
  rewrite nth_setn in H. destruct (Nat.eqb_spec i j) as [->|].
  - destruct (nth_error h j) as [q0|] eqn:H0; [|discriminate]. injection H as <-. eapply nodeok_ext; eauto.
    intros s Es. eapply PFm; [|eapply Hs; eauto]. intros t. now apply sc_ext.
  - eapply nodeok_ext; eauto. intros s Es. eapply PFm; [|eapply (no_s _ _ _ (HI _ _ H)); eauto]. intros t. now apply sc_ext.
Qed.
Lemma INV_ty h i t : INV h -> INV (setn h i (set_ty t)).
Proof. intros HI. apply INV_set; auto. intros q s H E. now apply (no_s _ _ _ (HI _ _ H)). Qed.
Lemma INV_only h i t : INV h -> INV (setn h i (set_only t)).
Proof. intros HI. apply INV_set; auto. intros q s H E. now apply (no_s _ _ _ (HI _ _ H)). Qed.
Lemma INV_sol h i a : PF (sc h i) a -> INV h -> INV (setn h i (set_sol a)).
Proof. intros Ha HI. apply INV_set; auto. intros q s H E. cbn in E. injection E as <-. exact Ha. Qed.

(** a new child of [p] *)
Definition scc (h : heap) (p : nat) (c : node) (s : string) : Prop := s = nd_v c \/ sc h p s.
Record childok (h : heap) (p : nat) (c : node) : Prop := {
  co_p : nd_p c = Some p;
  co_e : PF (scc h p c) (nd_e c);
  co_s : forall s, nd_sol c = Some s -> PF (scc h p c) s;
  co_t : match nd_t c with Some (TPull a) => PF (scc h p c) a | Some (TUSub _ u) => PF (sc h p) u | _ => True end;
  co_v : is_usub (nd_t c) = false -> forall m, nth_error h p = Some m -> nd_v m = nd_v c }.
Lemma INV_app h p m cs : nth_error h p = Some m -> Forall (childok h p) cs -> INV h -> INV (append h p cs).
Proof.
  intros Hm HC HI j q H. pose proof (ext_append h p cs) as E. pose proof (nth_lt _ _ _ Hm) as Lp.
  apply append_cases in H as H'; auto. destruct H' as [(q0 & H0 & C & _ & Es & _)|(L & Hi)].
  - eapply nodeok_ext; eauto.
    intros s Hs. rewrite Es in Hs. eapply PFm; [|eapply (no_s _ _ _ (HI _ _ H0)); eauto]. intros t. now apply sc_ext.
  - rewrite Forall_forall in HC. apply HC in Hi as [A1 A2 A3 A4 A5].
    assert (M : forall s, scc h p q s -> sc (append h p cs) j s).
    { intros s [->|[Hs|Hs]]; [right; now constructor|now left|]. right. eapply vis_up; eauto. eapply vis_ext; eauto. }
    constructor.
    + eapply PFm; [exact M|exact A2].
    + intros s Hs. eapply PFm; [exact M|auto].
    + destruct (nd_t q) as [[c| |k u|k]|]; auto; [eapply PFm; [exact M|auto]|].
      intros p' Hp'. assert (p' = p) by congruence. subst. eapply PFm; [|exact A4]. intros s. now apply sc_ext.
    + intros U p' Hp'. assert (p' = p) by congruence. subst. destruct (E _ _ Hm) as (m' & Hm' & Cm). apply core_inv in Cm as (_ & Cm & _).
      exists m'. split; auto. rewrite Cm. now apply A5.
Qed.

Lemma get_p h i q : nth_error h i = Some q -> get h i = Ok q.
Proof. unfold get. now intros ->. Qed.

(** *** The changes of the tree *)
Lemma add1_inv h p c h' : add1 fk h p c = Ok h' -> childok h p c -> INV h -> INV h'.
Proof.
  intros H HC HI. unfold add1 in H. apply bind_ok in H as (q & Hq & H). apply guard_inv in H. injection H as <-. apply get_ok in Hq.
  destruct (dropped h p c); auto. eapply INV_app; eauto.
Qed.
Lemma child_same h p m e t : nth_error h p = Some m -> PF (sc h p) e ->
  match t with TPull a => PF (sc h p) a | TUSub _ _ => False | _ => True end -> childok h p (mkn e (nd_v m) t p).
Proof.
  intros Hm He Ht. assert (M : forall s, sc h p s -> scc h p (mkn e (nd_v m) t p) s) by (intros; now right).
  constructor; cbn; auto.
  - eapply PFm; [exact M|exact He].
  - discriminate.
  - destruct t; auto; [eapply PFm; [exact M|exact Ht]|contradiction].
  - intros _ m' Hm'. congruence.
Qed.
Lemma child_usub h p m y e k u : nth_error h p = Some m -> PF (fun s => s = y \/ sc h p s) e -> PF (sc h p) u ->
  childok h p (mkn e y (TUSub k u) p).
Proof. intros Hm He Hu. constructor; cbn; auto; discriminate. Qed.
Lemma child_fill h p m e t s o : nth_error h p = Some m -> PF (sc h p) e -> PF (sc h p) s ->
  match t with TPull _ | TUSub _ _ => False | _ => True end -> childok h p (mkfill e (nd_v m) t p s o).
Proof.
  intros Hm He Hs Ht. assert (M : forall x, sc h p x -> scc h p (mkfill e (nd_v m) t p s o) x) by (intros; now right).
  constructor; cbn; auto.
  - eapply PFm; [exact M|exact He].
  - intros s' [= <-]. eapply PFm; [exact M|exact Hs].
  - destruct t; auto; contradiction.
  - intros _ m' Hm'. congruence.
Qed.
(** [i] is a node with variable [v], and [e] may appear there *)
Definition At (h : heap) (i : nat) (v : string) (e : expr) : Prop :=
  exists q, nth_error h i = Some q /\ nd_v q = v /\ PF (sc h i) e.
Lemma At_ext h h' i v e : ext h h' -> At h i v e -> At h' i v e.
Proof.
  intros E (q & Hq & Ev & He). destruct (E _ _ Hq) as (q' & Hq' & C). apply core_inv in C as (_ & C & _).
  exists q'. splits; auto; [congruence|]. eapply PFm; [|exact He]. intros s. now apply sc_ext.
Qed.
Lemma At_v h i v e : At h i v e -> PF (sc h i) (ESym v).
Proof. intros (q & Hq & <- & _). now apply PF_v. Qed.
Lemma At_e h i v e : At h i v e -> PF (sc h i) e.
Proof. intros (q & _ & _ & He). exact He. Qed.
Lemma At_node h i q : INV h -> nth_error h i = Some q -> At h i (nd_v q) (nd_e q).
Proof. intros HI H. exists q. splits; auto. apply (no_e _ _ _ (HI _ _ H)). Qed.
Lemma At_with h i v e e' : At h i v e -> PF (sc h i) e' -> At h i v e'.
Proof. intros (q & H1 & H2 & _) H. exists q. auto. Qed.

Lemma add_id_inv k h i v o h' : add_id fk k h i v o = Ok h' ->
  (forall e, o = Some e -> At h i v e) -> INV h -> INV h'.
Proof.
  intros H He HI. destruct o as [e|]; [|injection H as <-; auto]. destruct (He e eq_refl) as (q & Hq & <- & Hp).
  eapply add1_inv; eauto. apply child_same; auto.
Qed.
Lemma additivity_inv h p v e ts h' : At h p v e -> additivity fk h p v ts = Ok h' ->
  Forall (PF (sc h p)) ts -> INV h -> INV h'.
Proof.
  intros (q & Hq & <- & _) H Ht HI. unfold additivity in H. apply bind_ok in H as (q' & Hq' & H). apply guard_inv in H. injection H as <-.
  assert (E : ext h (setn h p (set_ty AND))) by (apply ext_setn; auto).
  eapply INV_app; [rewrite nth_setn, Nat.eqb_refl, Hq; reflexivity| |now apply INV_ty].
  apply Forall_forall. intros c Hc. apply filter_In in Hc as [Hc _]. apply in_map_iff in Hc as (t & <- & Hi).
  rewrite Forall_forall in Ht. apply (child_same _ _ (set_ty AND q)); auto.
  - rewrite nth_setn, Nat.eqb_refl, Hq. reflexivity.
  - eapply PFm; [|apply Ht; eauto]. intros s. now apply sc_ext.
Qed.
Definition scy (h : heap) (i : nat) (y s : string) : Prop := s = y \/ sc h i s.
Lemma usub_ch h i v e x k u g h' : At h i v e -> add1 fk h i (mkn g (nm x) (TUSub k u) i) = Ok h' ->
  hx (PF (sc h i)) u /\ hx (PF (scy h i (nm x))) g -> INV h -> INV h'.
Proof. intros (q & Hq & <- & _) H [Hu Hg] HI. eapply add1_inv; eauto. eapply child_usub; eauto. Qed.
Lemma scy_sub h i y e : hx (PF (sc h i)) e -> hx (PF (scy h i y)) e.
Proof. apply PFm. intros s H. now right. Qed.
Lemma scy_y h i y : hx (PF (scy h i y)) (ESym y).
Proof. apply PFs. now left. Qed.

Lemma safe_step_inv s i s' : safe_step fk rng nm n s i = Ok s' -> INV (fst s) -> INV (fst s').
Proof.
  destruct s as [h x]. intros H HI. unfold safe_step in H. apply bind_ok in H as (q & Hq & H). apply get_ok in Hq.
  cbn [fst] in *. cbv zeta in H. pose proof (At_node _ _ _ HI Hq) as HA. pose proof (At_e _ _ _ _ HA) as He.
  pose proof (At_v _ _ _ _ HA) as Hv.
  assert (R : match nd_e q with ESum ts => h' <- additivity fk h i (nd_v q) ts;; Ok (h', x) | _ => Ok s' end = Ok s' -> INV (fst s')).
  2: { apply R. destruct (nd_e q); auto. }
  remember (nd_e q) as e eqn:Ee. intros R.
  assert (H' : (exists ts, e = ESum ts) \/ (o <- pull_const fk (nd_v q) e;;
      match o with
      | Some (c, r) => h' <- add1 fk h i (mkn r (nd_v q) (TPull c) i);; Ok (h', x)
      | None =>
          o <- partial_fractions fk n (nd_v q) e;;
          match o with
          | Some r => h' <- add_id fk IPartial h i (nd_v q) (Some r);; Ok (h', x)
          | None =>
              o <- poly_division fk n (nd_v q) e;;
              match o with
              | Some r => h' <- add_id fk IPolyDiv h i (nd_v q) (Some r);; Ok (h', x)
              | None =>
                  o <- (if is_id IComplete (last_tr ex_pa h i) then Ok None else expand_step fk n e);;
                  match o with
                  | Some r => h' <- add_id fk IExpand h i (nd_v q) (Some r);; Ok (h', x)
                  | None =>
                      o <- linear_usub fk rng n (nd_v q) (nm x) e;;
                      match o with
                      | Some (u, g) => h' <- add1 fk h i (mkn g (nm x) (TUSub ULin u) i);; Ok (h', S x)
                      | None => Ok (h, x)
                      end
                  end
              end
          end
      end) = Ok s') by (destruct e; eauto).
  destruct H' as [[ts ->]|H'].
  { apply bind_ok in R as (h' & Hh & R). injection R as <-. cbn [fst]. eapply additivity_inv; eauto.
    apply (i_sum _ (HPF (sc h i))). exact He. }
  clear H R. apply bind_ok in H' as (o & Ho & H).
  apply (hok (HA:=holds_option (PF (sc h i)) (expr * expr))) in Ho; [|now apply pull_const_h].
  destruct o as [[c r]|].
  { destruct Ho as [Hc Hr]. apply bind_ok in H as (h' & Hh & H). injection H as <-. cbn [fst].
    eapply add1_inv; eauto. apply child_same; auto. }
  clear Ho. apply bind_ok in H as (o & Ho & H). apply (hok (HA:=holds_option (PF (sc h i)) expr)) in Ho; [|now apply partial_fractions_h].
  destruct o as [r|].
  { apply bind_ok in H as (h' & Hh & H). injection H as <-. cbn [fst]. eapply add_id_inv; eauto. intros r' [= <-]. eapply At_with; eauto. }
  clear Ho. apply bind_ok in H as (o & Ho & H). apply (hok (HA:=holds_option (PF (sc h i)) expr)) in Ho; [|now apply poly_division_h].
  destruct o as [r|].
  { apply bind_ok in H as (h' & Hh & H). injection H as <-. cbn [fst]. eapply add_id_inv; eauto. intros r' [= <-]. eapply At_with; eauto. }
  clear Ho. apply bind_ok in H as (o & Ho & H).
  apply (hok (HA:=holds_option (PF (sc h i)) expr)) in Ho; [|destruct (is_id _ _); [exact I|now apply expand_step_h]].
  destruct o as [r|].
  { apply bind_ok in H as (h' & Hh & H). injection H as <-. cbn [fst]. eapply add_id_inv; eauto. intros r' [= <-]. eapply At_with; eauto. }
  clear Ho. apply bind_ok in H as (o & Ho & H). destruct o as [[u g]|]; [|injection H as <-; exact HI].
  apply bind_ok in H as (h' & Hh & H). injection H as <-. cbn [fst]. eapply usub_ch; eauto.
  eapply (linear_usub_2 (PF (sc h i)) (PF (scy h i (nm x)))); [auto..|exact Ho]; auto using scy_sub, scy_y.
Qed.
Lemma foldM_inv {A B} (f : B -> A -> res B) (J : B -> Prop) l : (forall b a b', f b a = Ok b' -> J b -> J b') ->
  forall b b', foldM f l b = Ok b' -> J b -> J b'.
Proof.
  intros Hf. induction l as [|a l IH]; intros b b' H Hb; cbn [foldM] in H; [injection H as <-; auto|].
  apply bind_ok in H as (b1 & H1 & H). eapply IH; eauto.
Qed.
Lemma safely_inv k : forall s i s', safely fk rng nm n k s i = Ok s' -> INV (fst s) -> INV (fst s').
Proof.
  induction k as [|k IH]; intros s i s' H HI; cbn [safely] in H; [discriminate|].
  apply bind_ok in H as (s1 & H1 & H). apply bind_ok in H as (q & Hq & H). apply safe_step_inv in H1; auto.
  eapply (foldM_inv _ (fun s => INV (fst s))); eauto.
Qed.
Lemma check_inv h i h' : check_solvable fk h i = Ok h' -> INV h -> INV h'.
Proof.
  intros H HI. unfold check_solvable in H. apply bind_ok in H as (q & Hq & H). apply bind_ok in H as (o & Ho & H). apply get_ok in Hq.
  pose proof (At_node _ _ _ HI Hq) as HA. pose proof (At_e _ _ _ _ HA) as He. pose proof (At_v _ _ _ _ HA) as Hv.
  apply (hok (HA:=holds_option (PF (sc h i)) expr)) in Ho; [|now apply table_h].
  destruct o as [a|]; [apply guard_inv in H|]; injection H as <-; auto. apply INV_sol; [|now apply INV_ty].
  eapply PFm; [|exact Ho]. intros s. apply sc_ext. now apply ext_setn.
Qed.

(** *** Going back *)
(** no node has both kinds of children: parts of a sum, and an integrand in another variable *)
Definition unmixed (h : heap) : Prop := forall p m, nth_error h p = Some m ->
  forall k1 k2 c1 c2, In k1 (nd_kids m) -> In k2 (nd_kids m) -> nth_error h k1 = Some c1 -> nth_error h k2 = Some c2 ->
  is_add c1 = true -> is_usub (nd_t c2) = false.
Lemma unmixed_sol h i a : unmixed h -> unmixed (setn h i (set_sol a)).
Proof.
  assert (Dn : forall j q, nth_error (setn h i (set_sol a)) j = Some q -> exists q0, nth_error h j = Some q0 /\ nd_t q0 = nd_t q /\ nd_kids q0 = nd_kids q).
  { intros j q H. rewrite nth_setn in H. destruct (Nat.eqb i j); [|eauto]. destruct (nth_error h j) as [q0|]; [|discriminate].
    injection H as <-. exists q0. auto. }
  intros U p m Hm k1 k2 c1 c2 I1 I2 H1 H2 A. apply Dn in Hm as (m0 & Hm & _ & Km). apply Dn in H1 as (c1' & H1 & T1 & _).
  apply Dn in H2 as (c2' & H2 & T2 & _). rewrite <- Km in *. rewrite <- T2. unfold is_add in A. rewrite <- T1 in A. exact (U p m0 Hm k1 k2 c1' c2' I1 I2 H1 H2 A).
Qed.
Lemma vis_par h i q p s : INV h -> nth_error h i = Some q -> nd_p q = Some p -> is_usub (nd_t q) = false -> vis h i s -> vis h p s.
Proof.
  intros HI Hq Hp U V. destruct (vis_inv _ _ _ _ Hq V) as [->|(p' & Hp' & V')].
  - destruct (no_v _ _ _ (HI _ _ Hq) U p Hp) as (m & Hm & <-). now constructor.
  - replace p with p' by congruence. exact V'.
Qed.
Lemma PF_par h i q p e : INV h -> nth_error h i = Some q -> nd_p q = Some p -> is_usub (nd_t q) = false ->
  PF (sc h i) e -> PF (sc h p) e.
Proof. intros HI Hq Hp U. apply PFm. intros s [H|H]; [now left|right]. eapply vis_par; eauto. Qed.
Lemma sols_inv h p ks l : INV h -> (forall k, In k ks -> forall c, nth_error h k = Some c -> nd_p c = Some p /\ is_usub (nd_t c) = false) ->
  sols h ks = Ok l -> Forall (PF (sc h p)) l.
Proof.
  intros HI. revert l. induction ks as [|k ks IH]; intros l Hk H; cbn [sols] in H; [injection H as <-; constructor|].
  apply bind_ok in H as (q & Hq & H). apply get_ok in Hq. destruct (nd_sol q) as [s|] eqn:Es; [|discriminate].
  apply bind_ok in H as (l' & Hl & H). injection H as <-. destruct (Hk k (or_introl eq_refl) q Hq) as [Hp U].
  constructor; [|apply IH; auto; intros k' Hk' c Hc; apply (Hk k'); [now right|exact Hc]].
  eapply PF_par; eauto. apply (no_s _ _ _ (HI _ _ Hq)). exact Es.
Qed.
Lemma backward_inv h i h' : backward fk h i = Ok h' -> Tree h -> unmixed h -> INV h -> INV h' /\ unmixed h'.
Proof.
  intros H HT HU HI. unfold backward in H. apply bind_ok in H as (q & Hq & H). apply get_ok in Hq.
  destruct (nd_sol q) as [F|] eqn:Es; [|discriminate]. destruct (nd_t q) as [t|] eqn:Et; [|discriminate].
  destruct (nd_p q) as [p|] eqn:Ep; [|discriminate].
  apply bind_ok in H as (m & Hm & H). apply get_ok in Hm. apply bind_ok in H as (r & Hr & H). apply guard_inv in H. injection H as <-.
  split; [|now apply unmixed_sol]. apply INV_sol; auto. pose proof (HI _ _ Hq) as [N1 N2 N3 N4]. apply N2 in Es as HFs. rewrite Et in *.
  destruct t as [c| |k u|k].
  - assert (U : is_usub (nd_t q) = false) by now rewrite Et. apply (hok (HA:=holds_expr (PF (sc h p)))) in Hr; auto.
    apply op_mul_h; auto; [exact (PF_par h i q p _ HI Hq Ep U N3)|exact (PF_par h i q p _ HI Hq Ep U HFs)].
  - apply bind_ok in Hr as (l & Hl & Hr). apply (hok (HA:=holds_expr (PF (sc h p)))) in Hr; auto.
    apply kh_sum'; auto. change (Forall (PF (sc h p)) l). eapply sols_inv; eauto. intros k Hk c Hc.
    destruct (HT _ _ Hm) as (K & _ & _). destruct (K k Hk) as (_ & c' & Hc' & Pc). replace c with c' by congruence. split; auto.
    destruct (HT _ _ Hq) as (_ & _ & P3). rewrite Ep in P3. destruct P3 as (_ & m' & Hm' & Ik). replace m' with m in * by congruence.
    eapply (HU p m Hm i k q c'); eauto. unfold is_add. now rewrite Et.
  - apply guard_inv in Hr. apply (hok (HA:=holds_expr (PF (sc h p)))) in Hr; auto.
    apply (replaceE_h2 (PF (sc h i)) (PF (sc h p))); auto.
    + apply N3. exact Ep.
    + intros s Hs He. apply PFs in Hs. apply PFs. destruct Hs as [Hs|Hs]; [now left|].
      destruct (vis_inv _ _ _ _ Hq Hs) as [->|(p' & Hp' & V)]; [now apply Heq in He|]. right. congruence.
  - injection Hr as <-. apply (PF_par h i q p F HI Hq Ep); auto. now rewrite Et.
Qed.
Lemma climb_inv k : forall h i h', climb fk k h i = Ok h' -> Tree h -> unmixed h -> INV h -> INV h' /\ unmixed h'.
Proof.
  induction k as [|k IH]; intros h i h' H HT HU HI; cbn [climb] in H; [discriminate|]. apply bind_ok in H as (q & Hq & H).
  destruct (nd_p q) as [p|]; [|injection H as <-; auto]. apply bind_ok in H as (o & Ho & H).
  destruct o as [h1|]; [|injection H as <-; auto]. unfold catchV in Ho.
  destruct (backward fk h i) as [h2|x|s] eqn:E; [injection Ho as ->|destruct x; discriminate|discriminate].
  destruct (backward_inv _ _ _ E HT HU HI) as [HI1 HU1]. eapply IH; eauto. eapply Tree_grow; [eapply backward_grow; eauto|exact HT].
Qed.
Lemma go_backwards_inv h h' r : go_backwards fk h = Ok (h', r) -> Tree h -> unmixed h -> INV h -> INV h' /\ PF (sc h' 0) r.
Proof.
  intros H HT HU HI. unfold go_backwards in H. apply bind_ok in H as (b & Hb & H). destruct b; [|discriminate].
  apply bind_ok in H as (l & Hl & H). apply bind_ok in H as (ls & Hls & H). apply bind_ok in H as (h1 & Hf & H).
  apply bind_ok in H as (q & Hq & H). destruct (nd_sol q) as [s|] eqn:Es; [|discriminate]. injection H as <- <-.
  assert (J : Tree h1 /\ unmixed h1 /\ INV h1).
  { refine (foldM_inv _ (fun h => Tree h /\ unmixed h /\ INV h) ls _ _ _ Hf (conj HT (conj HU HI))). intros h2 a h3 E (T & U & I2).
    destruct (climb_inv _ _ _ _ E T U I2). splits; auto. eapply Tree_grow; [eapply climb_grow; eauto|exact T]. }
  destruct J as (_ & _ & J). split; auto. apply get_ok in Hq. now apply (no_s _ _ _ (J _ _ Hq)).
Qed.
(** the root's scope *)
Lemma root_scope h e v s : ext [mkroot e v] h -> sc h 0 s -> S0 s \/ s = v.
Proof.
  intros E [H|H]; [now left|right]. destruct (E 0 _ eq_refl) as (q & Hq & C). apply core_inv in C as (_ & C2 & _ & C4). cbn in C2, C4.
  destruct (vis_inv _ _ _ _ Hq H) as [->|(p & Hp & _)]; congruence.
Qed.
Lemma INV_root e v : PF (fun s => S0 s \/ s = v) e -> INV [mkroot e v].
Proof.
  intros He [|i] q H; [|destruct i; discriminate]. injection H as <-. constructor; cbn; auto; try discriminate.
  eapply PFm; [|exact He]. intros s [Hs| ->]; [now left|right]. exact (vis_here [mkroot e v] 0 (mkroot e v) eq_refl).
Qed.
End Root.

(** *** The nested integration of by parts: only safe transforms, so nothing is mixed *)
Definition is_sum (e : expr) : bool := match e with ESum _ => true | _ => false end.
Definition edges (h : heap) : Prop := forall i q, nth_error h i = Some q -> forall p m, nd_p q = Some p -> nth_error h p = Some m ->
  (is_add q = true -> is_sum (nd_e m) = true) /\ (is_usub (nd_t q) = true -> is_sum (nd_e m) = false).
Lemma edges_unmixed h : Tree h -> edges h -> unmixed h.
Proof.
  intros HT HE p m Hm k1 k2 c1 c2 I1 I2 H1 H2 A. destruct (HT _ _ Hm) as (K & _).
  destruct (K _ I1) as (_ & c1' & H1' & P1). destruct (K _ I2) as (_ & c2' & H2' & P2).
  replace c1' with c1 in * by congruence. replace c2' with c2 in * by congruence.
  destruct (HE _ _ H1 _ _ P1 Hm) as [E1 _]. destruct (HE _ _ H2 _ _ P2 Hm) as [_ E2].
  destruct (is_usub (nd_t c2)); auto. rewrite E1 in E2 by auto. discriminate E2. reflexivity.
Qed.
Lemma edges_core h h' : List.length h = List.length h' ->
  (forall j, option_map core (nth_error h j) = option_map core (nth_error h' j)) -> edges h -> edges h'.
Proof.
  intros _ E HE i q Hq p m Hp Hm. pose proof (E i) as Ei. pose proof (E p) as Em. rewrite Hq in Ei. rewrite Hm in Em.
  destruct (nth_error h i) as [q0|] eqn:H0; [|discriminate]. destruct (nth_error h p) as [m0|] eqn:M0; [|discriminate].
  cbn in Ei, Em. injection Ei as E1 E2 E3 E4. injection Em as M1 M2 M3 M4. unfold is_add. rewrite <- M1, <- E3. rewrite <- E4 in Hp. eapply HE; eauto.
Qed.
Lemma edges_set h i f : (forall q, core (f q) = core q) -> edges h -> edges (setn h i f).
Proof. intros Hf. apply edges_core; [now rewrite setn_length|now apply core_setn]. Qed.
Lemma edges_app h p m cs : Tree h -> nth_error h p = Some m -> edges h ->
  Forall (fun c => nd_p c = Some p /\ (is_add c = true -> is_sum (nd_e m) = true) /\ (is_usub (nd_t c) = true -> is_sum (nd_e m) = false)) cs ->
  edges (append h p cs).
Proof.
  intros HT Hm HE HC i q Hq p' m' Hp' Hm'. pose proof (nth_lt _ _ _ Hm) as Lp. rewrite Forall_forall in HC.
  assert (Old : forall j r r', j < List.length h -> nth_error (append h p cs) j = Some r -> nth_error h j = Some r' -> core r = core r').
  { intros j r r' Lj Hr Hr'. destruct (append_old h p cs _ _ Hr') as (r2 & H2 & C2 & _). congruence. }
  apply append_cases in Hq as [(q0 & H0 & C & _)|(L & Hi)]; auto.
  - apply core_inv in C as (C1 & C2 & C3 & C4). destruct (HT _ _ H0) as (_ & _ & P3). rewrite C4 in Hp'. rewrite Hp' in P3.
    destruct P3 as (Lt & m0 & Hm0 & _). pose proof (nth_lt _ _ _ Hm0) as Lm. pose proof (Old _ _ _ Lm Hm' Hm0) as Cm. apply core_inv in Cm as (Cm & _).
    unfold is_add. rewrite Cm, C3. eapply HE; eauto.
  - apply HC in Hi as (Hp & A). assert (p' = p) by congruence. subst p'. pose proof (Old _ _ _ Lp Hm' Hm) as Cm. apply core_inv in Cm as (Cm & _).
    now rewrite Cm.
Qed.
Lemma safe_step_edges s i s' : safe_step fk rng nm n s i = Ok s' -> Tree (fst s) -> edges (fst s) -> edges (fst s').
Proof.
  destruct s as [h x]. intros H HT HE. unfold safe_step in H. apply bind_ok in H as (q & Hq & H). apply get_ok in Hq. cbn [fst] in *.
  assert (A1 : forall e v t h', add1 fk h i (mkn e v t i) = Ok h' -> t <> TAdd ->
     (is_usub (Some t) = true -> is_sum (nd_e q) = false) -> edges h').
  { intros e v t h' Hh Ht Hs. unfold add1 in Hh. apply bind_ok in Hh as (q' & Hq' & Hh). apply guard_inv in Hh. injection Hh as <-.
    destruct (dropped _ _ _); auto. eapply edges_app; eauto. constructor; [|constructor]. cbn. splits; auto.
    unfold is_add. cbn. destruct t; congruence. }
  assert (R : match nd_e q with ESum ts => h' <- additivity fk h i (nd_v q) ts;; Ok (h', x) | _ => Ok s' end = Ok s' -> edges (fst s')).
  { destruct (nd_e q) eqn:Ee; intros E.
    all: try (clear E; repeat match type of H with
      | bind _ _ = Ok _ => let z := fresh "z" in let Hz := fresh "Hz" in apply bind_ok in H as (z & Hz & H)
      | (match ?o with Some _ => _ | None => _ end) = Ok _ => destruct o as [?|]
      | (let '(_, _) := ?o in _) = Ok _ => destruct o as [? ?]
      | Ok _ = Ok _ => injection H as <-; cbn [fst]
      end; solve [exact HE | eapply A1; [eassumption|discriminate|reflexivity]]).
    apply bind_ok in E as (h' & Hh & E). injection E as <-. cbn [fst]. unfold additivity in Hh. apply bind_ok in Hh as (q' & Hq' & Hh).
    apply guard_inv in Hh. injection Hh as <-.
    eapply (edges_app _ _ (set_ty AND q)); [apply Tree_set; auto|rewrite nth_setn, Nat.eqb_refl, Hq; reflexivity|now apply edges_set|].
    apply Forall_forall. intros c Hc. apply filter_In in Hc as [Hc _]. apply in_map_iff in Hc as (t & <- & Hi). cbn. rewrite Ee. splits; auto; discriminate. }
  apply R. destruct (nd_e q); auto.
Qed.
Lemma safely_edges k : forall s i s', safely fk rng nm n k s i = Ok s' -> Tree (fst s) /\ edges (fst s) -> Tree (fst s') /\ edges (fst s').
Proof.
  induction k as [|k IH]; intros s i s' H [HT HE]; cbn [safely] in H; [discriminate|].
  apply bind_ok in H as (s1 & H1 & H). apply bind_ok in H as (q & Hq & H). pose proof (safe_step_edges _ _ _ H1 HT HE) as HE1.
  apply safe_step_grow in H1. pose proof (Tree_grow _ _ H1 HT) as HT1.
  exact (foldM_inv _ (fun s => Tree (fst s) /\ edges (fst s)) _ (fun b a b' => IH b a b') _ _ H (conj HT1 HE1)).
Qed.
Lemma edges_root e v : edges [mkroot e v].
Proof. intros [|i] q H; [|destruct i; discriminate]. injection H as <-. discriminate. Qed.

(** integrate_without_heuristics returns an expression in the symbols of the integrand and the variable *)
Theorem iwh_scope S0 x e v o x1 : iwh fk rng nm n x e v = Ok (o, x1) -> PF (fun s => S0 s \/ s = v) e ->
  match o with Some r => PF (fun s => S0 s \/ s = v) r | None => True end.
Proof.
  intros H He. unfold iwh in H. apply bind_ok in H as ([h x2] & H1 & H).
  pose proof (safely_inv S0 _ _ _ _ H1 (INV_root S0 e v He)) as HI.
  destruct (safely_edges _ _ _ _ H1 (conj (Tree_root e v) (edges_root e v))) as [HT HE].
  apply safely_grow in H1 as G. cbn [fst] in *. apply bind_ok in H as (l & Hl & H). apply bind_ok in H as (h1 & Hf & H).
  assert (J : Tree h1 /\ edges h1 /\ INV S0 h1 /\ ext h h1).
  { refine (foldM_inv _ (fun h' => Tree h' /\ edges h' /\ INV S0 h' /\ ext h h') l _ _ _ Hf _).
    2:{ splits; auto. intros i q Hi. eauto. }
    intros h2 a h3 E (T2 & E2 & I2 & X2). apply bind_ok in E as (h' & Hc & E). apply bind_ok in E as (q & Hq & E). injection E as <-.
    pose proof (check_inv S0 _ _ _ Hc I2) as I3. apply check_grow in Hc as Gc. pose proof (Tree_grow _ _ Gc T2) as T3.
    pose proof (ext_trans _ _ _ X2 (ext_grow _ _ Gc)) as X3.
    assert (E3 : edges h').
    { unfold check_solvable in Hc. apply bind_ok in Hc as (qq & _ & Hc). apply bind_ok in Hc as (oo & _ & Hc).
      destruct oo; [apply guard_inv in Hc|]; injection Hc as <-; auto. apply edges_set; auto. apply edges_set; auto. }
    destruct (nd_ty q); splits; auto; try (apply Tree_set; auto); try (now apply edges_set); try (now apply INV_ty);
      (eapply ext_trans; [exact X3|now apply ext_setn]). }
  destruct J as (T1 & E1 & I1 & X1). apply bind_ok in H as (b & Hb & H). destruct b; [injection H as <- <-; exact I|].
  apply bind_ok in H as ([h' s] & Hg & H). injection H as <- <-.
  destruct (go_backwards_inv S0 _ _ _ Hg T1 (edges_unmixed _ T1 E1) I1) as [_ Hs]. apply go_backwards_grow in Hg.
  eapply PFm; [|exact Hs]. intros t Ht. eapply root_scope; [|exact Ht]. eapply ext_trans; [exact (ext_grow _ _ G)|]. eapply ext_trans; [exact X1|now apply ext_grow].
Qed.

(** *** By parts *)
Section Root2.
Context (S0 : string -> Prop).
Notation sc := (sc S0).
Notation INV := (INV S0).
Notation At := (At S0).
Lemma bp_i2_h P (HP : HerF P) (HFP : FHer P fk) du w : hx P du -> hx P w -> hall P (bp_i2 fk du w).
Proof. intros. unfold bp_i2. pose proof (fh_kern _ _ HFP). her. Qed.
Lemma bp_try_inv h x i v e a b o x1 : bp_try fk rng nm n h x i v e a b = Ok (o, x1) -> At h i v a -> At h i v b ->
  match o with Some (u, du, w) => PF (sc h i) u /\ PF (sc h i) du /\ PF (sc h i) w | None => True end.
Proof.
  intros H Ha Hb. unfold bp_try in H. apply bind_ok in H as (p & _ & H). destruct p; [injection H as <- <-; exact I|].
  apply bind_ok in H as (du & Hdu & H). apply (hok (HA:=holds_expr (PF (sc h i)))) in Hdu; [|apply diffE_h; auto; eapply At_e; eauto].
  apply bind_ok in H as ([ow x2] & Hw & H). destruct ow as [w|]; [|injection H as <- <-; exact I].
  apply (iwh_scope (sc h i)) in Hw.
  - apply bind_ok in H as (i2 & _ & H). apply bind_ok in H as (f & _ & H). destruct (isq f 1); [injection H as <- <-; exact I|].
    apply bind_ok in H as (bb & _ & H). injection H as <- <-. destruct bb; [exact I|]. splits; auto; [eapply At_e; eauto|].
    eapply PFm; [|exact Hw]. intros s [Hs| ->]; auto. apply PFs. eapply At_v; eauto.
  - eapply PFm; [|eapply At_e; exact Hb]. intros s Hs. now left.
Qed.
Lemma bp_check_inv h x i v e o x1 : bp_check fk rng nm n h x i v e = Ok (o, x1) -> At h i v e ->
  match o with Some (u, du, w) => PF (sc h i) u /\ PF (sc h i) du /\ PF (sc h i) w | None => True end.
Proof.
  intros H HA. unfold bp_check in H. pose proof (At_e _ _ _ _ _ HA) as He. pose proof (At_v _ _ _ _ _ HA) as Hv.
  destruct e as [| | | | | | | |[|a [|b [|]]]| |i0 b0|f i0|]; try (injection H as <- <-; exact I).
  - apply (i_prod _ (HPF (sc h i))) in He. inversion He as [|? ? Pa Hl]; subst. inversion Hl as [|? ? Pb _]; subst.
    pose proof (At_with _ _ _ _ _ _ HA Pa) as Aa. pose proof (At_with _ _ _ _ _ _ HA Pb) as Ab.
    apply bind_ok in H as ([o1 x2] & H1 & H). apply bp_try_inv in H1; auto. destruct o1 as [[[u du] w]|]; [injection H as <- <-; exact H1|].
    apply bp_try_inv in H; auto.
  - destruct (is_var v i0); [|injection H as <- <-; exact I]. apply bind_ok in H as (du & Hdu & H).
    apply (hok (HA:=holds_expr (PF (sc h i)))) in Hdu; [|apply diffE_h; auto]. injection H as <- <-. splits; auto.
  - destruct (_ && _); [|injection H as <- <-; exact I]. apply bind_ok in H as (du & Hdu & H).
    apply (hok (HA:=holds_expr (PF (sc h i)))) in Hdu; [|apply diffE_h; auto]. injection H as <- <-. splits; auto.
Qed.
Lemma PF_ext h h' i e : ext h h' -> PF (sc h i) e -> PF (sc h' i) e.
Proof. intros E. apply PFm. intros s. now apply sc_ext. Qed.
Lemma bp_funky_inv h i v e c1 i2 h' : bp_funky fk h i v e c1 i2 = Ok h' -> At h i v e -> PF (sc h i) c1 -> PF (sc h i) i2 ->
  INV h -> INV h'.
Proof.
  intros H (q & Hq & <- & He) H1 H2 HI. unfold bp_funky in H. apply bind_ok in H as (q' & Hq' & H). apply get_ok in Hq'. apply guard_inv in H.
  cbv zeta in H. apply guard_inv in H. injection H as <-. set (fn := {| nd_e := e |}).
  assert (M : forall s, sc h i s -> scc S0 h i fn s) by (intros; now right).
  assert (I1 : INV (append h i [fn])).
  { eapply INV_app; eauto. constructor; [|constructor]. constructor; cbn; auto; [eapply PFm; eauto|discriminate|congruence]. }
  assert (Hf : nth_error (append h i [fn]) (List.length h) = Some fn).
  { unfold append. rewrite nth_setn. assert (N : Nat.eqb i (List.length h) = false) by (apply Nat.eqb_neq; apply nth_lt in Hq; lia).
    rewrite N, nth_error_app2, Nat.sub_diag by lia. reflexivity. }
  assert (Up : forall x, PF (sc h i) x -> PF (sc (append h i [fn]) (List.length h)) x).
  { intros x. apply PFm. intros s [Hs|Hs]; [now left|right]. eapply vis_up; [exact Hf|reflexivity|]. eapply vis_ext; [apply ext_append|exact Hs]. }
  eapply INV_app; eauto. constructor.
  - apply (child_fill S0 _ _ fn); auto.
  - destruct (dropped _ _ _); constructor; auto. apply (child_same S0 _ _ fn); auto.
Qed.
Lemma last_bp_scope h i mi : INV h -> last_bp h i = Some mi -> forall s, vis h i s <-> vis h mi s.
Proof.
  intros HI. unfold last_bp, parents. generalize (S i). intros f. revert i. induction f as [|f IH]; intros i H s; cbn [anc last_bp_go] in H; [discriminate|].
  destruct (nth_error h i) as [q|] eqn:Hq; [|discriminate]. destruct (nd_t q) as [t|] eqn:Et; [|discriminate].
  assert (Go : is_usub (nd_t q) = false -> last_bp_go h match nd_p q with Some p => anc f h p | None => [] end = Some mi -> vis h i s <-> vis h mi s).
  { intros U G. destruct (nd_p q) as [p|] eqn:Ep; [|discriminate]. rewrite <- (IH _ G s). split; intros V; [eapply vis_par; eauto|eapply vis_up; eauto]. }
  rewrite Et in Go. destruct t as [c| |k u|k]; auto; try discriminate. destruct k; try discriminate. injection H as <-. tauto.
Qed.
Lemma PF_iff h i j e : (forall s, vis h i s <-> vis h j s) -> PF (sc h i) e -> PF (sc h j) e.
Proof. intros E. apply PFm. intros s [H|H]; [now left|right]. now apply E. Qed.
Lemma bp_cyclic2_inv h i mi v e c1 i2 h' : bp_cyclic2 fk h i mi v e c1 i2 = Ok h' -> last_bp h i = Some mi -> At h i v e ->
  PF (sc h i) c1 -> PF (sc h i) i2 -> Tree h -> INV h -> INV h'.
Proof.
  intros H HB HA P1 P2 HT HI. pose proof (last_bp_scope _ _ _ HI HB) as SC. destruct HA as (qi & Hqi & <- & He).
  unfold bp_cyclic2 in H. apply bind_ok in H as (m & Hm & H). apply get_ok in Hm. apply bind_ok in H as ([ff k1] & Hf & H).
  assert (Pf : PF (sc h i) ff).
  { unfold first_factor in Hf. destruct (nd_kids m) as [|? [|k1' ?]]; try discriminate. destruct (Nat.eqb k1' i).
    - injection Hf as <- _. apply (h_rat' _ (HPF (sc h i))).
    - apply bind_ok in Hf as (q & Hq & Hf). apply get_ok in Hq. pose proof (no_t _ _ _ _ (HI _ _ Hq)) as T. destruct (nd_t q) as [[c| | |]|]; try discriminate.
      apply bind_ok in Hf as (q1 & Hq1 & Hf). destruct (nd_kids q1) as [|k ?]; try discriminate. destruct (Nat.eqb k i); try discriminate.
      injection Hf as <- _. exact T. }
  assert (Pm : PF (sc h i) (nd_e m)) by (eapply PF_iff; [intros s; symmetry; apply SC|]; apply (no_e _ _ _ _ (HI _ _ Hm))).
  pose proof (HPF (sc h i)) as HPi. pose proof (HK (sc h i)) as HKi.
  apply bind_ok in H as (sf & Hsf & H). apply (hok (HA:=holds_expr (PF (sc h i)))) in Hsf; [|now apply op_div_h].
  apply bind_ok in H as (f & Hff & H). apply (hok (HA:=holds_expr (PF (sc h i)))) in Hff; [|now apply op_mul_h].
  destruct (nd_kids m) as [|k0 ks] eqn:Km; [discriminate|].
  apply bind_ok in H as (q0 & Hq0 & H). apply get_ok in Hq0. destruct (nd_sol q0) as [s0|] eqn:Es0; [|discriminate].
  apply bind_ok in H as (d & Hd & H). apply (hok (HA:=holds_expr (PF (sc h i)))) in Hd; [|apply op_sub_h; auto; apply (h_rat' _ HPi)].
  apply bind_ok in H as (s0' & Hs0 & H).
  destruct (HT _ _ Hm) as (Kids & _). destruct (Kids k0) as (_ & q0' & Hq0' & Pk0); [rewrite Km; now left|]. replace q0' with q0 in * by congruence.
  assert (Up : forall x, PF (sc h i) x -> PF (sc h k0) x).
  { intros x Hx. apply (PF_iff _ _ mi) in Hx; auto. revert Hx. apply PFm. intros s [Hs|Hs]; [now left|right]. eapply vis_up; eauto. }
  apply (hok (HA:=holds_expr (PF (sc h k0)))) in Hs0; [|apply op_div_h; auto; [apply (no_s _ _ _ _ (HI _ _ Hq0) _ Es0)|now apply Up]].
  apply bind_ok in H as (s & Hs & H). apply (hok (HA:=holds_expr (PF (sc h i)))) in Hs; [|now apply op_div_h].
  apply bind_ok in H as (q & Hq & H). apply bind_ok in H as (q1 & Hq1 & H). apply guard_inv in H. cbv zeta in H.
  apply bind_ok in H as (b & Hb & H). destruct b; [|discriminate]. injection H as <-.
  assert (I1 : INV (setn h k0 (set_sol s0'))) by (apply INV_sol; auto).
  assert (X : ext h (setn h k0 (set_sol s0'))) by (apply ext_setn; auto).
  destruct (X _ _ Hqi) as (qi' & Hqi' & C). apply core_inv in C as (_ & C & _).
  assert (I2 : INV (append (setn h k0 (set_sol s0')) i [mkfill e (nd_v qi) (TId IByParts) i s (Some [])])).
  { eapply INV_app; eauto. constructor; [|constructor]. rewrite <- C. apply (child_fill S0 _ _ qi'); auto; eapply PF_ext; eauto. }
  destruct k1 as [k|]; repeat (apply INV_only || apply INV_ty); exact I2.
Qed.
Lemma bp_forward_inv h i v e u du w h' : bp_forward fk h i v e (u, du, w) = Ok h' -> At h i v e ->
  PF (sc h i) u -> PF (sc h i) du -> PF (sc h i) w -> Tree h -> INV h -> INV h'.
Proof.
  intros H HA Hu Hdu Hw HT HI. unfold bp_forward in H. pose proof (HPF (sc h i)) as HPi. pose proof (HK (sc h i)) as HKi. pose proof (At_e _ _ _ _ _ HA) as He.
  apply bind_ok in H as (c1 & H1 & H). apply (hok (HA:=holds_expr (PF (sc h i)))) in H1; [|now apply op_mul_h].
  apply bind_ok in H as (i2 & H2 & H). apply (hok (HA:=holds_expr (PF (sc h i)))) in H2; [|now apply bp_i2_h].
  apply bind_ok in H as (f0 & Hf0 & H). destruct (negb (contains v f0)).
  - apply bind_ok in H as (f & Hf & H). apply (hok (HA:=holds_expr (PF (sc h i)))) in Hf; [|now apply op_div_h].
    apply bind_ok in H as (d & Hd & H). apply (hok (HA:=holds_expr (PF (sc h i)))) in Hd; [|apply op_sub_h; auto; apply (h_rat' _ HPi)].
    apply bind_ok in H as (s & Hs & H). apply (hok (HA:=holds_expr (PF (sc h i)))) in Hs; [|now apply op_div_h].
    apply bind_ok in H as (q & Hq & H). apply guard_inv in H. injection H as <-. apply INV_ty. destruct HA as (qi & Hqi & <- & _).
    eapply INV_app; eauto. constructor; [|constructor]. apply (child_fill S0 _ _ qi); auto.
  - destruct (last_bp h i) as [mi|] eqn:HB; [|eapply bp_funky_inv; eauto].
    apply bind_ok in H as (m & Hm & H). apply bind_ok in H as (sf & Hsf & H).
    destruct (contains v sf); [eapply bp_funky_inv|eapply bp_cyclic2_inv]; eauto.
Qed.

(** *** The heuristics and the main loop *)
Lemma h_usub_inv k s i v e o s' : h_usub fk nm k s i o = Ok s' -> At (fst s) i v e ->
  (forall u g, o = Some (u, g) -> hx (PF (sc (fst s) i)) u /\ hx (PF (scy S0 (fst s) i (nm (snd s)))) g) -> INV (fst s) -> INV (fst s').
Proof.
  destruct s as [h x]. intros H HA Ho HI. unfold h_usub in H. destruct o as [[u g]|]; [|injection H as <-; exact HI].
  apply bind_ok in H as (h' & H1 & H). injection H as <-. eapply usub_ch; eauto.
Qed.
Definition TI (h : heap) : Prop := Tree h /\ INV h.
Lemma TI_grow h h' : TI h -> grow h h' -> INV h' -> TI h'.
Proof. intros [HT _] G HI. split; auto. eapply Tree_grow; eauto. Qed.
Lemma heuristics_inv s i s' : heuristics fk rng nm n s i = Ok s' -> TI (fst s) -> TI (fst s').
Proof.
  intros H HI. assert (HG := H). apply heuristics_grow in HG. apply (TI_grow _ _ HI HG). clear HG.
  unfold heuristics in H. apply bind_ok in H as (q & Hq & H). apply get_ok in Hq. cbv zeta in H.
  pose proof (At_node _ _ _ _ (proj2 HI) Hq) as HA. remember (nd_v q) as v. remember (nd_e q) as e. clear Heqv Heqe Hq q.
  apply bind_ok in H as (s1 & H1 & H).
  assert (J1 : TI (fst s1) /\ At (fst s1) i v e).
  { apply bind_ok in H1 as (o1 & Ho & H1). assert (G := H1). apply h_usub_grow in G. split; [|eapply At_ext; eauto using ext_grow].
    apply (TI_grow _ _ HI G). eapply h_usub_inv; eauto; [|apply HI]. intros u g ->.
    eapply (poly_usub_2 (PF (sc (fst s) i)) (PF (scy S0 (fst s) i (nm (snd s))))); [auto..|exact Ho]; auto using scy_y; try (intros; now apply scy_sub); [eapply At_v|eapply At_e]; eauto. }
  clear H1 HI HA. destruct J1 as [I1 A1]. apply bind_ok in H as (s2 & H2 & H).
  assert (J2 : TI (fst s2) /\ At (fst s2) i v e).
  { apply bind_ok in H2 as (o2 & Ho & H2). apply bind_ok in H2 as (h2 & H2 & E2). injection E2 as <-. cbn [fst].
    assert (G := H2). apply add_id_grow in G. split; [|eapply At_ext; eauto using ext_grow].
    apply (TI_grow _ _ I1 G). eapply add_id_inv; eauto; [|apply I1]. intros e' ->.
    apply (hok (HA:=holds_option (PF (sc (fst s1) i)) expr)) in Ho; [eapply At_with; eauto|]. apply product_to_sum_unit_h; auto. eapply At_e; eauto. }
  clear H2 I1 A1 s1. destruct J2 as [I1 A1]. apply bind_ok in H as (s3 & H3 & H).
  assert (J3 : TI (fst s3) /\ At (fst s3) i v e).
  { destruct (match last_tr ex_pa _ i with Some (TUSub UInvTrig _) => true | _ => false end); [injection H3 as <-; auto|].
    apply bind_ok in H3 as (o3 & Ho & H3). assert (G := H3). apply h_usub_grow in G. split; [|eapply At_ext; eauto using ext_grow].
    apply (TI_grow _ _ I1 G). eapply h_usub_inv; eauto; [|apply I1]. intros u g ->.
    eapply (trig_usub_2 (PF (sc (fst s2) i)) (PF (scy S0 (fst s2) i (nm (snd s2))))); [auto..|exact Ho]; auto using scy_y; try (intros; now apply scy_sub); [eapply At_v|eapply At_e]; eauto. }
  clear H3 I1 A1. destruct J3 as [I3 A3]. apply bind_ok in H as (s4 & H4 & H).
  assert (J4 : TI (fst s4) /\ At (fst s4) i v e).
  { unfold h_byparts in H4. destruct s3 as [h x]. cbn [fst] in *. apply bind_ok in H4 as ([o x1] & Ho & H4). apply bp_check_inv in Ho; auto.
    destruct o as [[[u du] w]|]; [|injection H4 as <-; auto].
    apply bind_ok in H4 as (h' & H4 & E). injection E as <-. cbn [fst]. assert (G := H4). apply bp_forward_grow in G.
    split; [|eapply At_ext; eauto using ext_grow]. apply (TI_grow _ _ I3 G). destruct Ho as (? & ? & ?). eapply bp_forward_inv; eauto; apply I3. }
  clear H4 I3 A3. destruct J4 as [I4 A4]. apply bind_ok in H as (s5 & H5 & H).
  assert (J5 : TI (fst s5) /\ At (fst s5) i v e).
  { apply bind_ok in H5 as (h5 & H5 & E5). injection E5 as <-. cbn [fst]. unfold h_rewtrig in H5. destruct (is_id _ _); [injection H5 as <-; auto|].
    apply bind_ok in H5 as (o & Ho & H5). destruct o as [l|]; [|injection H5 as <-; auto]. apply bind_ok in H5 as (h' & H5 & E). injection E as <-.
    apply (hok (HA:=holds_option (PF (sc (fst s4) i)) (list expr))) in Ho; [|apply rewrite_trig_h; auto; eapply At_e; eauto].
    assert (K : forall l h0 h1, Forall (PF (sc (fst s4) i)) l -> foldM (fun h r => add1 fk h i (mkn r v (TId IRewTrig) i)) l h0 = Ok h1 -> ext (fst s4) h0 -> TI h0 -> TI h1 /\ ext (fst s4) h1).
    { clear -HPF PFm PFs HF Heq A4. induction l as [|r l IH]; intros h0 h1 Hl Hh X T; cbn [foldM] in Hh; [injection Hh as <-; auto|].
      apply bind_ok in Hh as (h2 & Ha & Hh). inversion Hl; subst. assert (G := Ha). apply add1_grow in G.
      eapply IH; eauto; [eapply ext_trans; eauto using ext_grow|]. apply (TI_grow _ _ T G).
      pose proof (At_ext _ _ _ _ _ _ X (At_with _ _ _ _ _ _ A4 H1)) as (qq & Hqq & <- & Hr). eapply add1_inv; eauto; [|apply T]. apply child_same; auto. }
    destruct (K l _ _ Ho H5) as [T X]; auto; [intros j qq Hj; eauto|]. split.
    - apply (TI_grow _ _ T); [apply g_one, p_ty; discriminate|]. apply INV_ty, T.
    - eapply At_ext; [|exact A4]. eapply ext_trans; [exact X|now apply ext_setn]. }
  clear H5 I4 A4. destruct J5 as [I5 A5]. apply bind_ok in H as (s6 & H6 & H).
  assert (J6 : TI (fst s6) /\ At (fst s6) i v e).
  { apply bind_ok in H6 as (o2 & Ho & H2). apply bind_ok in H2 as (h2 & H2 & E2). injection E2 as <-. cbn [fst].
    assert (G := H2). apply add_id_grow in G. split; [|eapply At_ext; eauto using ext_grow].
    apply (TI_grow _ _ I5 G). eapply add_id_inv; eauto; [|apply I5]. intros e' ->.
    apply (hok (HA:=holds_option (PF (sc (fst s5) i)) expr)) in Ho; [eapply At_with; eauto|]. apply rewrite_pyth_h; auto. eapply At_e; eauto. }
  clear H6 I5 A5. destruct J6 as [I6 A6]. apply bind_ok in H as (s7 & H7 & H).
  assert (J7 : TI (fst s7) /\ At (fst s7) i v e).
  { unfold h_inv in H7. destruct s6 as [h x]. cbn [fst] in *.
    destruct (match last_tr ex_pa _ i with Some (TUSub UTrig2 _) => true | _ => false end); [injection H7 as <-; auto|].
    apply bind_ok in H7 as (o & Ho & H7). destruct o as [[u g]|]; [|injection H7 as <-; auto]. cbv zeta in H7.
    assert (Hug : hx (PF (sc h i)) u /\ hx (PF (scy S0 h i (nm x))) g).
    { eapply (inv_usub_2 (PF (sc h i)) (PF (scy S0 h i (nm x)))); [auto..|exact Ho]; auto using scy_y; try (intros; now apply scy_sub); [eapply At_v|eapply At_e]; eauto. }
    apply bind_ok in H7 as (h1 & Ha & H7). assert (G := Ha). apply add1_grow in G. assert (Ha' := Ha).
    eapply usub_ch in Ha; eauto; [|apply I6]. pose proof (TI_grow _ _ I6 G Ha) as T1. pose proof (At_ext _ _ _ _ _ _ (ext_grow _ _ G) A6) as A7.
    apply bind_ok in H7 as (o & Hs & H7). destruct o as [r|]; [|injection H7 as <-; auto]. destruct (dropped _ _ _) eqn:D; [injection H7 as <-; auto|].
    apply bind_ok in H7 as (h2' & Hb & H7). injection H7 as <-. cbn [fst]. assert (G2 := Hb). apply add_id_grow in G2.
    split; [|eapply At_ext; eauto using ext_grow]. apply (TI_grow _ _ T1 G2). eapply add_id_inv; eauto. intros r' [= <-].
    unfold add1 in Ha'. apply bind_ok in Ha' as (qq & Hqq & Ha'). apply get_ok in Hqq. apply guard_inv in Ha'. rewrite D in Ha'. injection Ha' as <-.
    set (c := mkn g (nm x) (TUSub UInvTrig u) i) in *.
    destruct (append_new h i [c] 0) as (c' & Hc & Hc'); [cbn; lia|eapply nth_lt; eauto|]. cbn in Hc. injection Hc as <-. rewrite Nat.add_0_r in Hc'.
    exists c. splits; auto. pose proof (no_e _ _ _ _ (proj2 T1 _ _ Hc')) as Hge.
    apply (hok (HA:=holds_option (PF (sc (append h i [c]) (List.length h))) expr)) in Hs; auto. apply simplify_step_h; auto. }
  clear H7 I6 A6. destruct J7 as [I7 A7]. apply bind_ok in H as (s8 & H8 & H).
  assert (J8 : TI (fst s8) /\ At (fst s8) i v e).
  { apply bind_ok in H8 as (o2 & Ho & H2). apply bind_ok in H2 as (h2 & H2 & E2). injection E2 as <-. cbn [fst].
    assert (G := H2). apply add_id_grow in G. split; [|eapply At_ext; eauto using ext_grow].
    apply (TI_grow _ _ I7 G). eapply add_id_inv; eauto; [|apply I7]. intros e' ->.
    apply (hok (HA:=holds_option (PF (sc (fst s7) i)) expr)) in Ho; [eapply At_with; eauto|]. apply complete_square_h; auto; [eapply At_v|eapply At_e]; eauto. }
  clear H8 I7 A7. destruct J8 as [I8 A8]. apply bind_ok in H as (o9 & Ho & H). eapply h_usub_inv; eauto; [|apply I8]. intros u g ->.
  eapply (generic_usub_2 (PF (sc (fst s8) i)) (PF (scy S0 (fst s8) i (nm (snd s8))))); [auto..|exact Ho]; auto using scy_y; try (intros; now apply scy_sub); [eapply At_v|eapply At_e]; eauto.
Qed.
Lemma heuristically_inv s i s' : heuristically fk rng nm n s i = Ok s' -> TI (fst s) -> TI (fst s').
Proof.
  intros H HI. unfold heuristically in H. apply bind_ok in H as ([h x] & H1 & H). apply heuristics_inv in H1; auto. cbn [fst] in H1.
  apply bind_ok in H as (b & Hb & H). destruct b; [injection H as <-; exact H1|].
  assert (Ty : forall j t, t <> SOLUTION -> TI (setn h j (set_ty t))).
  { intros j t Ht. apply (TI_grow _ _ H1); [now apply g_one, p_ty|]. apply INV_ty, H1. }
  apply bind_ok in H as (q & Hq & H). destruct (nd_kids q) as [|k ks] eqn:K.
  - injection H as <-. apply Ty. discriminate.
  - refine (foldM_inv _ (fun s => TI (fst s)) _ _ _ _ H _).
    + intros b a b' E T. assert (G := E). apply safely_grow in G. apply (TI_grow _ _ T G). eapply safely_inv; eauto. apply T.
    + cbn [fst]. destruct ks; auto. apply Ty. discriminate.
Qed.
Lemma cycle_inv bf s i s' a : cycle fk rng nm n bf s i = Ok (s', a) -> TI (fst s) -> TI (fst s').
Proof.
  destruct s as [h x]. intros H HI. unfold cycle in H. apply bind_ok in H as (l & Hl & H). apply bind_ok in H as (h1 & H1 & H).
  apply bind_ok in H as (ul & Hu & H).
  assert (T1 : TI h1).
  { refine (foldM_inv _ TI _ _ _ _ H1 HI). intros b c b' E T. assert (G := E). apply check_grow in G. apply (TI_grow _ _ T G). eapply check_inv; eauto. apply T. }
  destruct ul as [|j ul].
  - injection H as <- <-. exact T1.
  - apply bind_ok in H as (s1 & H2 & H). apply heuristically_inv in H2; auto. apply bind_ok in H as (a1 & _ & H). injection H as <- <-. exact H2.
Qed.
Lemma run_inv bf k : forall s c s', Search.run fk rng nm n bf k s c = Ok s' -> TI (fst s) -> TI (fst s').
Proof.
  induction k as [|k IH]; intros s c s' H HI; cbn [Search.run] in H; (destruct c as [i|]; [|discriminate]);
    apply bind_ok in H as ([s1 a] & H1 & H); apply cycle_inv in H1; auto.
  - injection H as <-. exact H1.
  - apply bind_ok in H as (fin & _ & H). destruct fin; [injection H as <-; exact H1|].
    destruct a; [apply bind_ok in H as (j & _ & H)| |]; eapply IH; eauto.
Qed.
End Root2.

(** The result of an integration that ends with an unmixed tree. *)
Theorem integrate_scope S0 bf k fin e v r : integrate fk rng nm n bf k fin e v = Ok (Some r) -> PF (fun s => S0 s \/ s = v) e ->
  exists s0 s1, safely fk rng nm n n ([mkroot s0 v], 0) 0 = Ok s1 /\ exists s2, Search.run fk rng nm n bf k s1 (Some 0) = Ok s2 /\
  (unmixed (fst s2) -> PF (fun s => S0 s \/ s = v) r).
Proof.
  intros H He. unfold integrate in H. apply bind_ok in H as (e0 & He0 & H).
  apply (hok (HA:=holds_expr (PF (fun s => S0 s \/ s = v)))) in He0; [|now apply simplifyE_h].
  apply bind_ok in H as (s0 & H0 & H). apply bind_ok in H as (s1 & H1 & H). exists e0, s0. split; auto. exists s1. split; auto. intros U.
  pose proof (safely_inv S0 _ _ _ _ H0 (INV_root S0 e0 v He0)) as I0. apply safely_grow in H0 as G0.
  pose proof (Tree_grow _ _ G0 (Tree_root e0 v)) as T0. destruct (run_inv S0 _ _ _ _ _ H1 (conj T0 I0)) as [T1 I1]. apply run_grow in H1 as G1.
  apply bind_ok in H as (b & Hb & H). destruct b; [|discriminate]. apply bind_ok in H as ([h' r0] & Hg & H).
  destruct (go_backwards_inv S0 _ _ _ Hg T1 U I1) as [_ Hr]. apply go_backwards_grow in Hg as G2.
  assert (Hr0 : PF (fun s => S0 s \/ s = v) r0).
  { eapply PFm; [|exact Hr]. intros t. apply (root_scope S0 h' e0 v). eapply ext_trans; [exact (ext_grow _ _ G0)|]. eapply ext_trans; apply ext_grow; eauto. }
  destruct fin; [|injection H as <-; exact Hr0]. apply bind_ok in H as (r' & Hr' & H). injection H as <-.
  apply (hok (HA:=holds_expr (PF (fun s => S0 s \/ s = v)))) in Hr'; auto. now apply simplifyE_h.
Qed.
End Search.
