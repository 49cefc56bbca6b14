(** * Regex: the replacement and query functions of src/simpy/regex.py and src/simpy/utils.py
    (the matcher [eq] is modelled in Match.v), with their monotonicity and soundness. *)
From Coquelicot Require Import Coquelicot.
From Verif Require Export CalcSound Factor.

(** ** Replacement *)
Section Replace.
Context (fk : fkern).

(** The recursion shared by replace_factory_list (regex.py:394-428) and kinder_replace_many
    (434-478).  [p e] is [Ok (Some (e', h))] when the recursion stops at [e] with result [e']
    ([h]: counts as a hit), [Ok None] when it continues with the children.  An Any_ has no
    children and is returned unchanged. *)
Fixpoint walk (p : expr -> res (option (expr * bool))) (e : expr) : res (expr * bool) :=
  let fix go (l : list expr) : res (list expr * bool) :=
    match l with
    | [] => Ok ([], false)
    | t :: r => '(t', h) <- walk p t;; '(r', h') <- go r;; Ok (t' :: r', h || h')
    end in
  o <- p e;;
  match o with
  | Some r => Ok r
  | None =>
      match e with
      | ESum ts => '(ts', h) <- go ts;; s <- k_sum fk ts';; Ok (s, h)
      | EProd ts => '(ts', h) <- go ts;; s <- k_prod fk ts';; Ok (s, h)
      | EPow b x => '(b', h) <- walk p b;; '(x', h') <- walk p x;;
                    r <- k_pow fk b' x';; Ok (r, h || h')
      | ELog i b => '(i', h) <- walk p i;; '(b', h') <- walk p b;;
                    r <- k_log fk i' b';; Ok (r, h || h')
      | ETrig f i => '(i', h) <- walk p i;; r <- k_trig fk f i';; Ok (r, h)
      | EAbs i => '(i', h) <- walk p i;; r <- k_abs fk i';; Ok (r, h)
      | _ => Ok (e, false)
      end
  end.

(** replace_factory_list: the first condition that holds decides, regex.py:404-408. *)
Fixpoint first_cond (cps : list ((expr -> res bool) * (expr -> res expr))) (e : expr)
  : res (option (expr * bool)) :=
  match cps with
  | [] => Ok None
  | (c, p) :: r => b <- c e;; if b : bool then e' <- p e;; Ok (Some (e', true)) else first_cond r e
  end.
Definition replace_factory_list cps (e : expr) : res expr :=
  '(e', _) <- walk (first_cond cps) e;; Ok e'.
Definition replace_factory c p (e : expr) : res expr := replace_factory_list [(c, p)] e.

(** replace(expr, old, new), regex.py:481-487 *)
Definition replaceE (e old new : expr) : res expr :=
  replace_factory (fun t => k_eq fk t old) (fun _ => Ok new) e.

(** What a [perform] of kinder_replace returns: None, False or an expression. *)
Inductive pres := PNone | PFalse | PNew (e : expr).

(** The loop over performs in kinder_replace_many, regex.py:448-461. *)
Fixpoint first_perform (ps : list (expr -> res pres)) (e : expr) : res (option (expr * bool)) :=
  match ps with
  | [] => Ok None
  | p :: r =>
      o <- p e;;
      match o with
      | PNone => first_perform r e
      | PFalse => Ok (Some (e, false))
      | PNew e' => Ok (Some (e', true))
      end
  end.
(** kinder_replace_many(.., verbose=True): result and hit flag.  [oc] is overarching_cond
    ([fun _ => true] when it is None). *)
Definition kinder_replace_many (oc : expr -> bool) (ps : list (expr -> res pres)) (e : expr)
  : res (expr * bool) :=
  walk (fun t => if oc t then first_perform ps t else Ok (Some (t, false))) e.
Definition kinder_replace (p : expr -> res pres) (e : expr) : res (expr * bool) :=
  kinder_replace_many (fun _ => true) [p] e.

(** replace_class(expr, cls, newfunc), regex.py:490-522, for lists of trig classes (its only
    use).  [nf f] is the function given for class [f], if any. *)
Definition has_cls (nf : trig -> option (expr -> res expr)) (e : expr) : bool :=
  gcontains (fun t => match t with ETrig f _ => match nf f with Some _ => true | None => false end
                                 | _ => false end) e.
Fixpoint replace_class (nf : trig -> option (expr -> res expr)) (e : expr) : res expr :=
  let fix go (l : list expr) : res (list expr) :=
    match l with
    | [] => Ok []
    | t :: r => t' <- replace_class nf t;; r' <- go r;; Ok (t' :: r')
    end in
  if negb (has_cls nf e) then Ok e
  else
    match e with
    | ESum ts => ts' <- go ts;; k_sum fk ts'
    | EProd ts => ts' <- go ts;; k_prod fk ts'
    | EPow b x => b' <- replace_class nf b;; x' <- replace_class nf x;; k_pow fk b' x'
    | ELog i b => i' <- replace_class nf i;; b' <- replace_class nf b;; k_log fk i' b'
    | ETrig f i => i' <- replace_class nf i;;
                   match nf f with Some g => g i' | None => k_trig fk f i' end
    | EAbs i => i' <- replace_class nf i;; k_abs fk i'
    | _ => Ok e
    end.
End Replace.

(** ** Queries *)

(** [type(a) == type(b)] *)
Definition same_type (a b : expr) : bool :=
  match a, b with
  | ERat _, ERat _ | EPi, EPi | EE, EE | EInf, EInf | ENegInf, ENegInf | ESym _, ESym _
  | EAny _, EAny _ | ESum _, ESum _ | EProd _, EProd _ | EPow _ _, EPow _ _
  | ELog _ _, ELog _ _ | EAbs _, EAbs _ => true
  | ETrig f _, ETrig g _ => trig_eqb f g
  | _, _ => false
  end.

(** count(expr, query), regex.py:361-365 *)
Fixpoint countE (q e : expr) : nat :=
  if same_type e q && eeqb e q then 1%nat else
  match e with
  | ESum ts | EProd ts => list_sum (map (countE q) ts)
  | EPow b x => (countE q b + countE q x)%nat
  | ELog i b => (countE q i + countE q b)%nat
  | ETrig _ i | EAbs i => countE q i
  | _ => 0%nat
  end.

(** eq_with_var((a, x), (b, y)), utils.py:21-44 *)
Fixpoint eq_with_var (x y : string) (e1 e2 : expr) : bool :=
  let fix all (l m : list expr) : bool :=
    match l, m with
    | [], [] => true
    | s :: l', t :: m' => eq_with_var x y s t && all l' m'
    | _, _ => false
    end in
  if negb (same_type e1 e2) then false else
  match e1, e2 with
  | ESym s, ESym t => if String.eqb s x then String.eqb t y else String.eqb s t
  | ESum l, ESum m | EProd l, EProd m =>
      match l, m with
      | [], _ | _, [] => eeqb e1 e2
      | _, _ => all l m
      end
  | EPow a b, EPow c d | ELog a b, ELog c d => eq_with_var x y a c && eq_with_var x y b d
  | ETrig _ a, ETrig _ c | EAbs a, EAbs c => eq_with_var x y a c
  | _, _ => eeqb e1 e2
  end.

(** ** Monotonicity *)
Section RegexMono.
Context (f1 f2 : fkern) (HF : fle f1 f2).

Lemma walk_mono p1 p2 : (forall e, rle (p1 e) (p2 e)) ->
  forall e, rle (walk f1 p1 e) (walk f2 p2 e).
Proof.
  intros Hp e.
  induction e as [q| | | | | | |ts IH|ts IH|b x IHb IHx|i b IHi IHb|f i IHi|i IHi] using expr_ind';
    cbn [walk]; (apply rle_bind; [apply Hp|intros [?|]; [apply rle_refl|]]); mono.
  - induction IH as [|t l Ht Hl IHl]; mono.
  - induction IH as [|t l Ht Hl IHl]; mono.
Qed.

Lemma replaceE_mono e old new : rle (replaceE f1 e old new) (replaceE f2 e old new).
Proof.
  unfold replaceE, replace_factory, replace_factory_list. apply rle_bind; [|intros []; apply rle_refl].
  apply walk_mono. intros t. cbn [first_cond]. mono.
Qed.

Lemma kinder_mono oc ps1 ps2 : Forall2 (fun p1 p2 => forall e, rle (p1 e) (p2 e)) ps1 ps2 ->
  forall e, rle (kinder_replace_many f1 oc ps1 e) (kinder_replace_many f2 oc ps2 e).
Proof.
  intros H e. apply walk_mono. intros t. destruct (oc t); [|apply rle_refl].
  induction H as [|p1 p2 l1 l2 Hp _ IH]; cbn [first_perform]; mono.
Qed.

Lemma replace_class_mono nf1 nf2 :
  (forall f, match nf1 f, nf2 f with
             | Some g1, Some g2 => forall i, rle (g1 i) (g2 i)
             | None, None => True | _, _ => False end) ->
  forall e, rle (replace_class f1 nf1 e) (replace_class f2 nf2 e).
Proof.
  intros HN.
  assert (HC : forall e, has_cls nf1 e = has_cls nf2 e).
  { intros e. unfold has_cls.
    assert (P : forall t, (match t with ETrig f _ => match nf1 f with Some _ => true | None => false end
                                 | _ => false end) = 
       match t with ETrig f _ => match nf2 f with Some _ => true | None => false end | _ => false end).
    { destruct t; auto. specialize (HN f). destruct (nf1 f), (nf2 f); tauto. }
    induction e as [q| | | | | | |ts IH|ts IH|b x IHb IHx|i b IHi IHb|f i IHi|i IHi] using expr_ind';
      cbn [gcontains]; try reflexivity; try (now rewrite ?IHb, ?IHx, ?IHi).
    - induction IH as [|t l Ht _ IHl]; simpl in *; auto. now rewrite Ht, IHl.
    - induction IH as [|t l Ht _ IHl]; simpl in *; auto. now rewrite Ht, IHl.
    - specialize (P (ETrig f i)). cbn in P. now rewrite P, IHi. }
  intros e.
  induction e as [q| | | | | | |ts IH|ts IH|b x IHb IHx|i b IHi IHb|f i IHi|i IHi] using expr_ind';
    cbn [replace_class]; rewrite HC; destruct (negb _); try apply rle_refl; mono.
  - induction IH as [|t l Ht Hl IHl]; mono.
  - induction IH as [|t l Ht Hl IHl]; mono.
  - specialize (HN f). destruct (nf1 f), (nf2 f); try tauto; mono.
Qed.
End RegexMono.

(** ** Soundness *)
Open Scope R_scope.

(** Rebuilding a tree whose nodes are replaced by nodes of equal value.  [r0] is the assignment
    of the original, [r] the assignment of the result. *)
Section WalkSound.
Context (r0 r : env) (fk : fkern) (HF : FSound r fk).
Let HG : GSound r fk := f_k _ _ HF.
Context (p : expr -> res (option (expr * bool))).
Context (Hp : forall t t' h, p t = Ok (Some (t', h)) -> wd r0 t -> wd r t' /\ ev r t' = ev r0 t).
Context (Hs : forall s, p (ESym s) = Ok None -> r s = r0 s).

Theorem walk_sound e : forall e' h, walk fk p e = Ok (e', h) -> wd r0 e ->
  wd r e' /\ ev r e' = ev r0 e.
Proof.
  assert (L : forall ts, Forall (fun e => forall e' h, walk fk p e = Ok (e', h) -> wd r0 e ->
      wd r e' /\ ev r e' = ev r0 e) ts -> forall ts' h,
    (fix go (l : list expr) : res (list expr * bool) :=
    match l with
    | [] => Ok ([], false)
    | t :: r => '(t', h) <- walk fk p t;; '(r', h') <- go r;; Ok (t' :: r', h || h')
    end) ts = Ok (ts', h) -> Forall (wd r0) ts ->
    Forall (wd r) ts' /\ map (ev r) ts' = map (ev r0) ts).
  { induction 1 as [|t l Ht Hl IHl]; intros ts' h H W.
    - injection H as <- <-. auto.
    - apply bind_ok in H as ([t1 h1] & H1 & H). apply bind_ok in H as ([l1 h2] & H2 & H).
      injection H as <- <-. inversion W; subst. apply IHl in H2 as [A B]; auto.
      apply Ht in H1 as [C D]; auto. split; [constructor; auto|]. simpl. now rewrite D, B. }
  induction e as [q| | | |s|s| |ts IH|ts IH|b x IHb IHx|i b IHi IHb|f i IHi|i IHi] using expr_ind';
    intros e' h H W; cbn [walk] in H; apply bind_ok in H as (o & Ho & H);
    (destruct o as [[o1 oh]|]; [injection H as <- <-; eapply Hp; eauto|]);
    try (injection H as <- <-; split; [exact I|reflexivity]); try (destruct W; fail).
  - injection H as <- <-. split; [exact I|]. simpl. auto.
  - apply bind_ok in H as ([ts1 h1] & H1 & H). apply bind_ok in H as (s1 & H2 & H). injection H as <- <-.
    apply wd_sum in W. eapply L in H1 as [A B]; eauto. apply (g_sum _ _ HG) in H2 as [C D]; auto.
    split; auto. rewrite D, B. reflexivity.
  - apply bind_ok in H as ([ts1 h1] & H1 & H). apply bind_ok in H as (s1 & H2 & H). injection H as <- <-.
    apply wd_prod in W as [W _]. eapply L in H1 as [A B]; eauto. apply (g_prod _ _ HG) in H2 as [C D]; auto.
    split; auto. rewrite D, B. reflexivity.
  - destruct W as (Wb & Wx & _). apply bind_ok in H as ([b1 h1] & H1 & H). apply bind_ok in H as ([x1 h2] & H2 & H).
    apply bind_ok in H as (r1 & H3 & H). injection H as <- <-. apply IHb in H1 as [A B]; auto. apply IHx in H2 as [C D]; auto.
    apply (g_pow _ _ HG) in H3 as (_ & E & F'); auto. split; auto. rewrite F', B, D. reflexivity.
  - destruct W as (Wb & Wx & _). apply bind_ok in H as ([b1 h1] & H1 & H). apply bind_ok in H as ([x1 h2] & H2 & H).
    apply bind_ok in H as (r1 & H3 & H). injection H as <- <-. apply IHi in H1 as [A B]; auto. apply IHb in H2 as [C D]; auto.
    apply (f_log _ _ HF) in H3 as (_ & E & F'); auto. split; auto. rewrite F'. simpl. now rewrite B, D.
  - destruct W as (Wi & _). apply bind_ok in H as ([b1 h1] & H1 & H). apply bind_ok in H as (r1 & H3 & H).
    injection H as <- <-. apply IHi in H1 as [A B]; auto. apply (f_trig _ _ HF) in H3 as (_ & E & F'); auto.
    split; auto. rewrite F'. simpl. now rewrite B.
  - apply bind_ok in H as ([b1 h1] & H1 & H). apply bind_ok in H as (r1 & H3 & H).
    injection H as <- <-. apply IHi in H1 as [A B]; auto. apply (g_abs _ _ HG) in H3 as (E & F'); auto.
    split; auto. rewrite F'. simpl. now rewrite B.
Qed.
End WalkSound.

(** replace at two assignments: every symbol other than [old] keeps its value, [old] at the
    original assignment has the value of [new] at the new one. *)
Theorem replaceE_sound2 r0 r fk (HF : FSound r fk) e old new e' :
  replaceE fk e old new = Ok e' -> wd r0 e -> wd r new -> ev r new = ev r0 old ->
  (forall s, k_eq fk (ESym s) old = Ok false -> r s = r0 s) ->
  wd r e' /\ ev r e' = ev r0 e.
Proof.
  intros H W Wn E Hs. unfold replaceE, replace_factory, replace_factory_list in H.
  apply bind_ok in H as ([e1 h] & H & H1). injection H1 as <-.
  eapply (walk_sound r0 r fk HF); eauto.
  - intros t t' h' Ht Wt. cbn [first_cond] in Ht. apply bind_ok in Ht as (b & Hb & Ht).
    destruct b; [|discriminate]. cbn in Ht. injection Ht as <- <-. apply (f_eq _ _ HF) in Hb as ->. auto.
  - intros s Hn. cbn [first_cond] in Hn. apply bind_ok in Hn as (b & Hb & Hn).
    destruct b; [discriminate|]. auto.
Qed.

(** replace with an expression of the same value. *)
Theorem replaceE_sound r fk (HF : FSound r fk) e old new e' :
  replaceE fk e old new = Ok e' -> wd r e -> wd r new -> ev r new = ev r old ->
  wd r e' /\ ev r e' = ev r e.
Proof. intros. eapply replaceE_sound2; eauto. Qed.

Theorem kinder_sound r fk (HF : FSound r fk) oc ps :
  Forall (fun p : expr -> res pres => forall t t', p t = Ok (PNew t') -> wd r t -> good r t t') ps ->
  forall e e' h, kinder_replace_many fk oc ps e = Ok (e', h) -> wd r e -> good r e e'.
Proof.
  intros HP e e' h H W. eapply (walk_sound r r fk HF); eauto. cbv beta.
  intros t t' h' Ht Wt. destruct (oc t); [|injection Ht as <- <-; auto].
  clear H. induction HP as [|p l Hp _ IH]; cbn [first_perform] in Ht; [discriminate|].
  apply bind_ok in Ht as (o & Ho & Ht). destruct o as [| |n]; auto; injection Ht as <- <-; auto.
  apply Hp; auto.
Qed.

Theorem replace_class_sound r fk (HF : FSound r fk) nf :
  (forall f g i e', nf f = Some g -> g i = Ok e' -> wd r i ->  
     wd r e' /\ ev r e' = tev f (ev r i)) ->
  forall e e', replace_class fk nf e = Ok e' -> wd r e -> good r e e'.
Proof.
  intros HN. pose proof (f_k _ _ HF) as HG.
  assert (L : forall ts, Forall (fun e => forall e', replace_class fk nf e = Ok e' -> wd r e -> good r e e') ts ->
    forall ts', (fix go (l : list expr) : res (list expr) :=
    match l with
    | [] => Ok []
    | t :: r => t' <- replace_class fk nf t;; r' <- go r;; Ok (t' :: r')
    end) ts = Ok ts' -> Forall (wd r) ts ->
    Forall (wd r) ts' /\ map (ev r) ts' = map (ev r) ts).
  { induction 1 as [|t l Ht Hl IHl]; intros ts' H W.
    - injection H as <-. auto.
    - apply bind_ok in H as (t1 & H1 & H). apply bind_ok in H as (l1 & H2 & H).
      injection H as <-. inversion W; subst. apply IHl in H2 as [A B]; auto.
      apply Ht in H1 as [C D]; auto. split; [constructor; auto|]. simpl. now rewrite D, B. }
  assert (RF : forall t, wd r t -> good r t t) by (intros t Wt; now split).
  induction e as [q| | | |s|s| |ts IH|ts IH|b x IHb IHx|i b IHi IHb|f i IHi|i IHi] using expr_ind';
    intros e' H W; cbn [replace_class] in H;
    (destruct (negb _); [injection H as <-; now apply RF|]); try (injection H as <-; now apply RF);
    try (destruct W; fail).
  - apply bind_ok in H as (ts1 & H1 & H). apply wd_sum in W. eapply L in H1 as [A B]; eauto.
    apply (g_sum _ _ HG) in H as [C D]; auto. split; auto. rewrite D, B. reflexivity.
  - apply bind_ok in H as (ts1 & H1 & H). apply wd_prod in W as [W _]. eapply L in H1 as [A B]; eauto.
    apply (g_prod _ _ HG) in H as [C D]; auto. split; auto. rewrite D, B. reflexivity.
  - destruct W as (Wb & Wx & _). apply bind_ok in H as (b1 & H1 & H). apply bind_ok in H as (x1 & H2 & H).
    apply IHb in H1 as [A B]; auto. apply IHx in H2 as [C D]; auto.
    apply (g_pow _ _ HG) in H as (_ & E & F'); auto. split; auto. rewrite F', B, D. reflexivity.
  - destruct W as (Wb & Wx & _). apply bind_ok in H as (b1 & H1 & H). apply bind_ok in H as (x1 & H2 & H).
    apply IHi in H1 as [A B]; auto. apply IHb in H2 as [C D]; auto.
    apply (f_log _ _ HF) in H as (_ & E & F'); auto. split; auto. rewrite F'. simpl. now rewrite B, D.
  - destruct W as (Wi & _). apply bind_ok in H as (b1 & H1 & H). apply IHi in H1 as [A B]; auto.
    destruct (nf f) as [g|] eqn:E.
    + eapply HN in H as [C D]; eauto. split; auto. rewrite D, B. reflexivity.
    + apply (f_trig _ _ HF) in H as (_ & C & D); auto. split; auto. rewrite D, B. reflexivity.
  - apply bind_ok in H as (b1 & H1 & H). apply IHi in H1 as [A B]; auto.
    apply (g_abs _ _ HG) in H as (C & D); auto. split; auto. rewrite D, B. reflexivity.
Qed.

(** ** The queries agree *)
Lemma contains_names v e : contains v e = true <-> In v (names e).
Proof.
  induction e as [q| | | | |s| |ts IH|ts IH|b x IHb IHx|i b IHi IHb|f i IHi|i IHi] using expr_ind';
    cbn [contains names]; try (split; [discriminate|intros []]); auto.
  - split.
    + intros H. apply String.eqb_eq in H as ->. now left.
    + intros [->|[]]. apply String.eqb_refl.
  - rewrite existsb_exists, in_flat_map. rewrite Forall_forall in IH. 
    split; intros (t & H1 & H2); exists t; split; auto; apply IH; auto.
  - rewrite existsb_exists, in_flat_map. rewrite Forall_forall in IH. 
    split; intros (t & H1 & H2); exists t; split; auto; apply IH; auto.
  - rewrite orb_true_iff, in_app_iff. tauto.
  - rewrite orb_true_iff, in_app_iff. tauto.
Qed.

Theorem contains_symbols v e : contains v e = true <-> In v (symbols e).
Proof. unfold symbols. rewrite nodup_In. apply contains_names. Qed.

Lemma list_sum_pos l : (0 < list_sum l)%nat <-> Exists (fun n => (0 < n)%nat) l.
Proof.
  induction l as [|n l IH]; simpl; split; intros H; try lia; try (inversion H; fail).
  - destruct n; [right; apply IH; lia|left; lia].
  - inversion H; subst; [lia|]. apply IH in H1. lia.
Qed.

Theorem contains_count v e : contains v e = true <-> (0 < countE (ESym v) e)%nat.
Proof.
  assert (X : forall ts, Forall (fun e => contains v e = true <-> (0 < countE (ESym v) e)%nat) ts ->
    existsb (contains v) ts = true <-> (0 < list_sum (map (countE (ESym v)) ts))%nat).
  { intros ts IH. rewrite list_sum_pos, Exists_map, existsb_exists, Exists_exists.
    rewrite Forall_forall in IH. split; intros (t & H1 & H2); exists t; split; auto; apply IH; auto. }
  induction e as [q| | | | |s| |ts IH|ts IH|b x IHb IHx|i b IHi IHb|f i IHi|i IHi] using expr_ind';
    cbn [contains countE same_type andb]; try (split; [discriminate|lia]); auto.
  - cbn [eeqb]. destruct (String.eqb s v); split; intros; auto; try lia; discriminate.
  - rewrite orb_true_iff, IHb, IHx. lia.
  - rewrite orb_true_iff, IHi, IHb. lia.
Qed.

Theorem count_symbols_pos e : (0 < count_symbols e)%nat <-> exists v, contains v e = true.
Proof.
  unfold count_symbols.
  assert (X : forall ts, Forall (fun e => (0 < gcount is_sym e)%nat <-> exists v, contains v e = true) ts ->
    (0 < list_sum (map (gcount is_sym) ts))%nat <-> exists v, existsb (contains v) ts = true).
  { intros ts IH. rewrite list_sum_pos, Exists_map, Exists_exists.
    rewrite Forall_forall in IH. split.
    - intros (t & H1 & H2). apply IH in H2 as (v & Hv); auto. exists v. apply existsb_exists. eauto.
    - intros (v & Hv). apply existsb_exists in Hv as (t & H1 & H2). exists t. split; auto. apply IH; eauto. }
  induction e as [q| | | | |s| |ts IH|ts IH|b x IHb IHx|i b IHi IHb|f i IHi|i IHi] using expr_ind';
    cbn [contains gcount is_sym]; try (split; [lia|intros [v H]; discriminate]); auto.
  - split; intros; [exists s; apply String.eqb_refl|lia].
  - split.
    + intros H. assert (H' : (0 < gcount is_sym b)%nat \/ (0 < gcount is_sym x)%nat) by lia.
      destruct H' as [H'|H']; [apply IHb in H' as [v Hv]|apply IHx in H' as [v Hv]]; exists v; rewrite Hv; auto using orb_true_r.
    + intros [v Hv]. apply orb_prop in Hv as [Hv|Hv].
      * assert (0 < gcount is_sym b)%nat by (apply IHb; eauto). lia.
      * assert (0 < gcount is_sym x)%nat by (apply IHx; eauto). lia.
  - split.
    + intros H. assert (H' : (0 < gcount is_sym i)%nat \/ (0 < gcount is_sym b)%nat) by lia.
      destruct H' as [H'|H']; [apply IHi in H' as [v Hv]|apply IHb in H' as [v Hv]]; exists v; rewrite Hv; auto using orb_true_r.
    + intros [v Hv]. apply orb_prop in Hv as [Hv|Hv].
      * assert (0 < gcount is_sym i)%nat by (apply IHi; eauto). lia.
      * assert (0 < gcount is_sym b)%nat by (apply IHb; eauto). lia.
Qed.

(** ** eq_with_var: specification by renaming *)
Fixpoint rename (x y : string) (e : expr) : expr :=
  match e with
  | ESym s => if String.eqb s x then ESym y else e
  | ESum ts => ESum (map (rename x y) ts)
  | EProd ts => EProd (map (rename x y) ts)
  | EPow a b => EPow (rename x y a) (rename x y b)
  | ELog a b => ELog (rename x y a) (rename x y b)
  | ETrig f a => ETrig f (rename x y a)
  | EAbs a => EAbs (rename x y a)
  | _ => e
  end.

Lemma qeqb_eq a b : qeqb a b = true <-> a = b.
Proof.
  unfold qeqb. rewrite andb_true_iff, Z.eqb_eq, Pos.eqb_eq. destruct a, b; simpl; split; [intros [-> ->]; auto|].
  intros H; injection H; auto.
Qed.
Lemma trig_eqb_eq f g : trig_eqb f g = true <-> f = g.
Proof. destruct f, g; simpl; split; intros; auto; discriminate. Qed.

Theorem eq_with_var_rename x y a : forall b, eq_with_var x y a b = true <-> b = rename x y a.
Proof.
  assert (L : forall l, Forall (fun a => forall b, eq_with_var x y a b = true <-> b = rename x y a) l ->
    forall m, (fix all (l m : list expr) : bool :=
    match l, m with
    | [], [] => true
    | s :: l', t :: m' => eq_with_var x y s t && all l' m'
    | _, _ => false
    end) l m = true <-> m = map (rename x y) l).
  { induction 1 as [|t l Ht Hl IHl]; intros [|u m]; simpl; split; try discriminate; auto.
    - intros H. apply andb_prop in H as [H1 H2]. apply Ht in H1 as ->. apply IHl in H2 as ->. auto.
    - intros H. injection H as -> ->. apply andb_true_iff. split; [now apply Ht|now apply IHl]. }
  induction a as [q| | | | |s|k|ts IH|ts IH|b0 x0 IHb IHx|i b0 IHi IHb|f i IHi|i IHi] using expr_ind'; intros b.
  - destruct b; cbn; try (split; discriminate). rewrite qeqb_eq. split; [intros ->|intros H; injection H]; auto.
  - destruct b; cbn; split; auto; discriminate.
  - destruct b; cbn; split; auto; discriminate.
  - destruct b; cbn; split; auto; discriminate.
  - destruct b; cbn; split; auto; discriminate.
  - destruct b; cbn; try (destruct (String.eqb s x); split; discriminate).
    destruct (String.eqb s x) eqn:E; rewrite String.eqb_eq; split; intros H; try (subst; auto); injection H; auto.
  - destruct b; cbn; try (split; discriminate). rewrite String.eqb_eq. split; [intros ->|intros H; injection H]; auto.
  - destruct b; cbn [eq_with_var same_type negb rename]; try (split; discriminate).
    specialize (L ts IH ts0). destruct ts as [|t ts], ts0 as [|t0 ts0]; cbn [eeqb map]; try (split; discriminate).
    + split; auto.
    + rewrite L. split; [intros ->|intros H; injection H as -> ->]; auto.
  - destruct b; cbn [eq_with_var same_type negb rename]; try (split; discriminate).
    specialize (L ts IH ts0). destruct ts as [|t ts], ts0 as [|t0 ts0]; cbn [eeqb map]; try (split; discriminate).
    + split; auto.
    + rewrite L. split; [intros ->|intros H; injection H as -> ->]; auto.
  - destruct b; cbn [eq_with_var same_type negb rename]; try (split; discriminate).
    rewrite andb_true_iff, IHb, IHx. split; [intros [-> ->]|intros H; injection H as -> ->]; auto.
  - destruct b; cbn [eq_with_var same_type negb rename]; try (split; discriminate).
    rewrite andb_true_iff, IHi, IHb. split; [intros [-> ->]|intros H; injection H as -> ->]; auto.
  - destruct b as [| | | | | | | | | | |g j|]; cbn [eq_with_var same_type negb rename]; try (split; discriminate).
    destruct (trig_eqb f g) eqn:E; cbn [negb].
    + apply trig_eqb_eq in E as ->. rewrite IHi. split; [intros ->|intros H; injection H]; auto.
    + split; [discriminate|]. intros H. injection H as -> _. 
      assert (T : trig_eqb f f = true) by now apply trig_eqb_eq. congruence.
  - destruct b; cbn [eq_with_var same_type negb rename]; try (split; discriminate).
    rewrite IHi. split; [intros ->|intros H; injection H]; auto.
Qed.

(** Renaming is evaluation with the value of [y] given to [x]. *)
Theorem rename_ev x y r e : ev r (rename x y e) = ev (upd r x (r y)) e.
Proof.
  induction e as [q| | | | |s|k|ts IH|ts IH|b0 x0 IHb IHx|i b0 IHi IHb|f i IHi|i IHi] using expr_ind';
    cbn [rename ev]; try reflexivity; try congruence.
  - unfold upd. destruct (String.eqb s x); reflexivity.
  - f_equal. rewrite map_map. induction IH; simpl; congruence.
  - f_equal. rewrite map_map. induction IH; simpl; congruence.
Qed.
