(** * FragG: what Prod keeps of its factors (for C90).

    A finer statement than FragX.k_prod_mono: the factors whose base is selected by [sel] are the same
    before and after, when no two selected factors have the same base and the coefficient is not 0. *)
From Verif Require Import Frag FragX.
From Coq Require Import Permutation Lqa Qpower.
Open Scope Z_scope.

Lemma filter_perm {A} (f : A -> bool) l m : Permutation l m -> Permutation (filter f l) (filter f m).
Proof.
  induction 1 as [|a l m P IH|a b l|l m k P1 IH1 P2 IH2]; cbn [filter]; auto.
  - destruct (f a); auto.
  - destruct (f a), (f b); auto. apply perm_swap.
  - eapply Permutation_trans; eauto.
Qed.

(** no factor of a product is the number 0 *)
Definition nzp (e : expr) : Prop := match e with EProd ts => Forall (fun t => isq t 0 = false) ts | _ => True end.
(** the base of a factor *)
Definition fbase (t : expr) : expr := fst (decon_pow t).

Section Sel.
Context {j : nat} (B : expr -> Prop) (HB : opaqueJ j B).
Context (X : expr -> Q -> Prop) (XC : forall b p q, (p == q)%Q -> X b p -> X b q) (XA : forall b p q, X b p -> X b q -> X b (p + q)%Q) (X1 : forall b, B b -> X b 1%Q).
Notation atom := (oatom B X). Notation fac := (ofac B X). Notation mono := (omono B X). Notation poly := (opoly B X).
Hint Constructors oatom ofac omono opoly : core.
Context (sel : expr -> bool) (Sr : forall q, sel (ERat q) = false).
Definition selb (t : expr) : bool := sel (fbase t).

Lemma fac_sel t : fac t -> (exists b q, decon_pow t = (b, ERat q) /\ fbase t = b /\ B b /\ bases t = [b] /\ X b q /\ is_acc t = false) \/ (exists q, t = ERat q).
Proof.
  intros T. destruct (fac_base B HB X X1 t T) as [(b & q & E & Eb & Xq & _ & _ & Hb & Ha)|H]; [left|right; exact H].
  exists b, q. unfold fbase. rewrite E. repeat split; auto.
Qed.
Lemma base_selb b : B b -> selb b = sel b.
Proof. intros H. destruct (base_facts B HB b H) as (E & _). unfold selb, fbase. now rewrite E. Qed.

(** collecting the powers of a base that is not selected leaves the selected factors *)
Lemma split_sel c k b l : (B b \/ is_rat b = true) -> sel b = false -> Forall fac l -> forall x h x' rest, split_base c k b x l = Ok (h, x', rest) -> filter selb rest = filter selb l.
Proof.
  intros Hb Sb. induction 1 as [|t l T Hl IH]; intros x h x' rest E; cbn [split_base] in E; [injection E as <- <- <-; auto|].
  destruct (decon_pow t) as [ob oe] eqn:D. apply bind_ok in E as (eq & Eq & E).
  assert (Hs : eq = true -> selb t = false).
  { intros ->. unfold py_eq in Eq. destruct (strict c && coin ob b); [discriminate|]. injection Eq as Eq. unfold selb, fbase. rewrite D. cbn [fst].
    destruct (fac_sel t T) as [(b' & q & D' & _ & Hb' & _)|(q & ->)].
    - rewrite D in D'. injection D' as <- _. destruct Hb as [Hb|Hb]; [now rewrite (op_eq HB ob b Hb' Hb Eq)|].
      destruct b; try discriminate. destruct (base_rat B HB ob q0 Hb') as (_ & A & _). congruence.
    - cbn in D. injection D as <- _. apply Sr. }
  destruct eq.
  - apply bind_ok in E as (x1 & _ & E). apply bind_ok in E as ([[h1 x2] r1] & E1 & E). injection E as <- <- <-. cbn [filter]. rewrite (Hs eq_refl). eauto.
  - apply bind_ok in E as ([[h1 x2] r1] & E1 & E). injection E as <- <- <-. cbn [filter]. rewrite (IH _ _ _ _ E1). reflexivity.
Qed.
Lemma split_fac c k b l : Forall fac l -> forall x h x' rest, split_base c k b x l = Ok (h, x', rest) -> Forall fac rest.
Proof.
  induction 1 as [|t l T Hl IH]; intros x h x' rest E; cbn [split_base] in E; [injection E as <- <- <-; auto|].
  destruct (decon_pow t) as [ob oe] eqn:D. apply bind_ok in E as (eq & Eq & E). destruct eq.
  - apply bind_ok in E as (x1 & _ & E). apply bind_ok in E as ([[h1 x2] r1] & E1 & E). injection E as <- <- <-. eauto.
  - apply bind_ok in E as ([[h1 x2] r1] & E1 & E). injection E as <- <- <-. eauto.
Qed.
Lemma split_none c k b l : B b -> Forall fac l -> ~ In b (flat_map bases l) -> forall x, split_base c k b x l = Ok (false, x, l).
Proof.
  intros Hb. induction 1 as [|t l T Hl IH]; intros N x; cbn [split_base]; auto.
  cbn [flat_map] in N. rewrite in_app_iff in N. destruct (fac_sel t T) as [(b' & q & D' & _ & Hb' & Eb & _)|(q & ->)].
  - rewrite D', py_eq_ok by now apply (op_coin HB). cbn [bind]. destruct (eeqb b' b) eqn:Es.
    + exfalso. apply N. left. rewrite Eb, (op_eq HB b' b Hb' Hb Es). now left.
    + rewrite IH; auto.
  - cbn [decon_pow]. destruct (base_rat B HB b q Hb) as (A1 & A2 & A3 & A4). rewrite py_eq_ok by auto. rewrite A4. cbn [bind]. rewrite IH; auto.
Qed.
Lemma sel_in b l : B b -> sel b = true -> Forall fac l -> In b (flat_map bases l) -> In b (flat_map bases (filter selb l)).
Proof.
  intros Hb Sb. induction 1 as [|t l T Hl IH]; cbn [flat_map filter]; auto. rewrite in_app_iff. intros [H|H].
  - destruct (fac_sel t T) as [(b' & q & D' & Fb & Hb' & Eb & _)|(q & ->)]; [|destruct H].
    rewrite Eb in H. destruct H as [<-|[]]. unfold selb at 1. rewrite Fb, Sb. cbn [flat_map]. rewrite Eb. now left.
  - destruct (selb t); [cbn [flat_map]; rewrite in_app_iff|]; auto.
Qed.
Lemma combine_sel c n : forall f l nc cs, Forall fac l -> NoDup (flat_map bases (filter selb l)) ->
  combine_prod_go c (K c (S n)) f l = Ok (nc, cs) -> filter selb nc = filter selb l.
Proof.
  induction f as [|f IH]; intros l nc cs Fl N E; (destruct l as [|t l]; [cbn in E; injection E as <- <-; auto|]); [discriminate|].
  inversion Fl as [|? ? T Fl']; subst. cbn [combine_prod_go] in E.
  assert (Add : forall u rest, selb u = false \/ is_acc u = true -> (p <- combine_prod_go c (K c (S n)) f rest;; Ok (add_term u p)) = Ok (nc, cs) -> Forall fac rest -> NoDup (flat_map bases (filter selb rest)) ->
    filter selb nc = filter selb rest).
  { intros u rest Su Ea Fr Nr. apply bind_ok in Ea as ([nc1 cs1] & E1 & Ea). apply IH in E1; auto. unfold add_term in Ea. destruct (is_acc u) eqn:Au; injection Ea as <- <-; auto.
    destruct Su as [Su|Su]; [|discriminate]. cbn [filter fst]. now rewrite Su. }
  destruct (fac_sel t T) as [(b & q & D & Fb & Hb & Eb & Xq & Ha)|(q & ->)].
  - rewrite D in E. destruct (sel b) eqn:Sb.
    + assert (St : selb t = true) by (unfold selb; now rewrite Fb). cbn [filter] in N. rewrite St in N. cbn [flat_map] in N. rewrite Eb in N. cbn [app] in N. inversion N as [|? ? N1 N2]; subst.
      rewrite split_none in E; auto.
      2:{ intros H. apply N1. now apply sel_in. }
      cbn [bind] in E. apply bind_ok in E as ([nc1 cs1] & E1 & E). apply IH in E1; auto. unfold add_term in E. rewrite Ha in E. injection E as <- <-. cbn [filter fst]. rewrite St. now f_equal.
    + assert (St : selb t = false) by (unfold selb; now rewrite Fb). cbn [filter] in N |- *. rewrite St in *.
      apply bind_ok in E as ([[h ex] rest] & E1 & E). pose proof (split_fac _ _ _ _ Fl' _ _ _ _ E1) as Fr.
      destruct (split_base_sym B HB X XC XA X1 c (K c (S n)) b q l Hb Xq Fl') as (h' & p' & rest' & E1' & _). rewrite E1 in E1'. injection E1' as -> -> ->.
      assert (Er : filter selb rest' = filter selb l) by (eapply split_sel; [left; exact Hb|exact Sb|exact Fl'|exact E1]).
      rewrite <- Er in N |- *. destruct h'.
      * destruct (isq (ERat p') 0) eqn:E0; [now apply IH in E|]. destruct (isq (ERat p') 1) eqn:E1'; [apply (Add b); auto; left; now rewrite base_selb|].
        rewrite (k_pow_base B HB) in E by auto. unfold isq in E0, E1'. rewrite E0, E1' in E. cbn [bind] in E. apply (Add (EPow b (ERat p'))); auto.
      * apply (Add t); auto.
  - cbn [decon_pow] in E. assert (St : selb (ERat q) = false) by apply Sr. cbn [filter] in N |- *. rewrite St in *.
    destruct (split_base_rat B HB X X1 c (K c (S n)) q l Fl' 1%Q eq_refl ltac:(lra)) as (h & p' & rest & E1 & H1 & H2 & H3 & H4 & H5 & H6 & H7).
    rewrite E1 in E. cbn [bind] in E.
    assert (Er : filter selb rest = filter selb l) by (eapply split_sel; [right|apply Sr|exact Fl'|exact E1]; reflexivity).
    rewrite <- Er in N |- *. destruct h; [|apply (Add (ERat q)); auto].
    destruct (isq (ERat p') 0) eqn:E0; [now apply IH in E|]. destruct (isq (ERat p') 1); [apply (Add (ERat q)); auto|].
    destruct (k_pow_int c n q p' H1) as (r & Er' & _); [intros; lra|]. rewrite Er' in E. cbn [bind] in E. apply (Add (ERat r)); auto.
Qed.

Lemma selb_rat q : selb (ERat q) = false.
Proof. apply Sr. Qed.

Theorem prod_selJ c n l : Forall mono l -> NoDup (flat_map bases (filter selb (flat_prod l))) ->
  exists r, k_prod (K c (6 + j + n)) l = Ok r /\ mono r /\ nzp r /\ (forall b, In b (flat_map bases (flat_prod1 r)) -> In b (flat_map bases (flat_prod l))) /\
    (Permutation (filter selb (flat_prod1 r)) (filter selb (flat_prod l)) \/ (exists q, r = ERat q /\ (q == 0)%Q /\ (coefprod l == 0)%Q)).
Proof.
  intros Hl N. destruct (k_prod_mono B HB X XC XA X1 c n l Hl) as (r & E & M & C & I). exists r. split; [exact E|]. split; [exact M|].
  destruct (flat_fac_list B HB X l Hl) as (Ff & Cf).
  change (K c (6 + j + n)) with (build c (K c (5 + j + n))) in E. cbn [build k_prod] in E. unfold prod_body, combine_prod in E.
  destruct (combine_prod_go_fac B HB X XC XA X1 c (4 + j + n) (List.length (flat_prod l)) _ Ff (Nat.le_refl _)) as (nc & cs & E0 & I1 & I2 & I3 & _).
  change (S (4 + j + n)) with (5 + j + n)%nat in E0. rewrite E0 in E. pose proof (combine_sel c (4 + j + n) _ _ nc cs Ff N E0) as Sn. cbn [bind] in E.
  assert (An : Forall (fun t => isq t 0 = false) nc).
  { eapply Forall_impl; [|exact I1]. intros a A. destruct (atom_noacc B HB X a A) as [_ R]. destruct a; auto; discriminate. }
  assert (Fin : forall ts, Forall fac ts -> Forall (fun t => isq t 0 = false) ts -> filter selb ts = filter selb nc ->
    match ts with
      | [] => Ok (ERat 1)
      | [t] => Ok t
      | _ => s <- sort_terms (K c (5 + j + n)) ts;;
             match s with
             | [t0; ESum us] => if isq t0 (-1) then op_neg (K c (5 + j + n)) (ESum us) else Ok (EProd s)
             | _ => Ok (EProd s)
             end
      end = Ok r -> nzp r /\ Permutation (filter selb (flat_prod1 r)) (filter selb (flat_prod l))).
  { intros ts Fts Zts Ets H. rewrite <- Sn, <- Ets. destruct ts as [|t [|u ts]].
    - injection H as <-. split; [exact Logic.I|]. cbn [flat_prod1 filter]. rewrite selb_rat. auto.
    - injection H as <-. pose proof (flat_prod_fac B HB X [t] Fts) as Ep. unfold flat_prod in Ep. simpl in Ep. rewrite app_nil_r in Ep. rewrite Ep. split; auto.
      inversion Fts as [|? ? Ft _]; subst. assert (P : is_prod t = false) by (apply (gfac_noprod B HB); now apply (fac_any B X)). destruct t; try exact Logic.I. discriminate.
    - apply bind_ok in H as (s & Hs & H). apply Sound.sort_perm in Hs. assert (Fs : Forall fac s) by (eapply Permutation_Forall; eauto).
      assert (R : r = EProd s).
      { destruct s as [|a [|b [|? ?]]]; try (injection H as <-; reflexivity); [|destruct b; injection H as <-; reflexivity].
        inversion Fs as [|? ? _ F2]; subst. inversion F2 as [|? ? F3 _]; subst. destruct b; try (injection H as <-; reflexivity).
        exfalso. destruct (fac_sel _ F3) as [(b & q & D & _ & Hb & _)|(q & D)]; [|discriminate]. cbn in D. injection D as <- _. pose proof (op_shape HB _ Hb). discriminate. }
      subst r. cbn [nzp flat_prod1]. fold (flat_prod s). rewrite (flat_prod_fac B HB X s Fs). split; [eapply Permutation_Forall; eauto|]. apply filter_perm. now symmetry. }
  assert (Fnc : Forall fac nc) by (eapply Forall_impl; [|exact I1]; auto).
  destruct cs as [|k0 cs].
  - cbn [bind] in E. destruct (Fin nc Fnc An eq_refl E) as [F1 F2]. split; [exact F1|]. split; [exact I|]. left. exact F2.
  - destruct (acc_prod_rats (k0 :: cs) I2) as (q & Eq & Hq). rewrite Eq in E. cbn [bind] in E. destruct (isq (ERat q) 0) eqn:E1.
    { cbn [bind] in E. injection E as <-. split; [exact Logic.I|]. split; [exact I|]. right. exists q. apply isq_rat in E1. repeat split; auto. now rewrite <- Cf, <- I3, <- Hq. }
    destruct (isq (ERat q) 1); cbn [bind] in E.
    + destruct (Fin nc Fnc An eq_refl E) as [F1 F2]. split; [exact F1|]. split; [exact I|]. left. exact F2.
    + destruct (Fin (nc ++ [ERat q])) as [F1 F2]; auto.
      * apply Forall_app. auto.
      * apply Forall_app. auto.
      * rewrite filter_app. cbn [filter]. rewrite selb_rat. apply app_nil_r.
Qed.
End Sel.


(** the case of bases that print with recursion bound 3 *)
Theorem prod_sel (B : expr -> Prop) (HB : opaque B) (X : expr -> Q -> Prop) (XC : forall b p q, (p == q)%Q -> X b p -> X b q)
  (XA : forall b p q, X b p -> X b q -> X b (p + q)%Q) (X1 : forall b, B b -> X b 1%Q) (sel : expr -> bool) (Sr : forall q, sel (ERat q) = false) c n l :
  Forall (omono B X) l -> NoDup (flat_map bases (filter (selb sel) (flat_prod l))) ->
  exists r, k_prod (K c (6 + n)) l = Ok r /\ omono B X r /\ nzp r /\ (forall b, In b (flat_map bases (flat_prod1 r)) -> In b (flat_map bases (flat_prod l))) /\
    (Permutation (filter (selb sel) (flat_prod1 r)) (filter (selb sel) (flat_prod l)) \/ (exists q, r = ERat q /\ (q == 0)%Q /\ (coefprod l == 0)%Q)).
Proof. exact (prod_selJ B HB X XC XA X1 sel Sr c n l). Qed.
