(** * TrigSimp: the trig rules of src/simpy/simplify/simplify.py and [simplify] itself. *)
From Coquelicot Require Import Coquelicot.
From Coq Require Import Sorting.Permutation.
From Verif Require Export Match Pts.

(** isinstance(e, TrigFunctionNotInverse), expr.py:1818-1820; e.has(..) *)
Definition is_notinv (e : expr) : bool := match e with ETrig f _ => negb (is_inverse f) | _ => false end.
Definition has_trig : expr -> bool := gcontains is_notinv.
Definition has_log : expr -> bool := gcontains (fun e => match e with ELog _ _ => true | _ => false end).

(** [f.exponent == 2 and isinstance(f.base, cls)] for a Power [f], simplify.py:86-87: the argument
    of the function *)
Definition is_sq (cls : trig -> bool) (e : expr) : option expr :=
  match e with
  | EPow (ETrig f i) x => if isq x 2 && cls f then Some i else None
  | _ => None
  end.
Definition is_sin (f : trig) : bool := match f with Sin => true | _ => false end.
Definition is_cos (f : trig) : bool := match f with Cos => true | _ => false end.
Definition is_sincos (f : trig) : bool := is_sin f || is_cos f.

(** the test of line 73-80 *)
Definition sq_trig (e : expr) : bool :=
  match is_sq (fun f => negb (is_inverse f)) e with Some _ => true | None => false end.

(** Leibniz equality test, used by strict mode only *)
Definition sameb (a b : expr) : bool := eeqb a b && negb (coin a b).
Definition psameb (a b : expr * expr) : bool := sameb (fst a) (fst b) && sameb (snd a) (snd b).
Definition peeqb (a b : expr * expr) : bool := eeqb (fst a) (fst b) && eeqb (snd a) (snd b).
Fixpoint pnodup (l : list (expr * expr)) : bool :=
  match l with [] => true | a :: r => negb (existsb (peeqb a) r) && pnodup r end.
Definition psomes (l : list (option (expr * expr))) : list (expr * expr) :=
  flat_map (fun o => match o with Some d => [d] | None => [] end) l.
Definition keepb {A} (l : list A) (bs : list bool) : list A := map fst (filter (fun p => snd p) (combine l bs)).

(** The queries of simplify.py:114-122 and 222-227 as Eq.__init__ (regex.py:195-198) expands them
    after multiplying with the factor wildcard ([query_ok] in PropsD.v: what the code computes). *)
Definition fkey : string := "factor_k".
Definition akey : string := "k".
Definition q_plus (f : trig) : expr :=   (* factor*(1 + f(any)^2) *)
  ESum [EProd [EAny fkey; EPow (ETrig f (EAny akey)) (ERat 2)]; EAny fkey].
Definition q_minus (f : trig) : expr :=  (* factor*(1 - f(any)^2) *)
  ESum [EProd [ERat (-1); EAny fkey; EPow (ETrig f (EAny akey)) (ERat 2)]; EAny fkey].
Definition q_minus1 (f : trig) : expr := (* factor*(-1 + f(any)^2) *)
  ESum [EProd [EAny fkey; EPow (ETrig f (EAny akey)) (ERat 2)]; EProd [ERat (-1); EAny fkey]].
Definition pyth_identities : list (expr * trig) :=
  [(q_plus Tan, Sec); (q_minus Sin, Cos); (q_minus Cos, Sin); (q_minus1 Sec, Tan); (q_plus Cot, Csc);
   (q_minus1 Csc, Cot)].
Definition comb_identities : list (expr * trig) :=
  [(EProd [EAny fkey; ETrig Sec (EAny akey); ETrig Sin (EAny akey)], Tan);
   (EProd [EAny fkey; ETrig Cos (EAny akey); ETrig Csc (EAny akey)], Cot)].

Section TrigSimp.
Context (fk : fkern).

(** is_thing_squared, simplify.py:83-97: argument and cofactor *)
Definition thing_squared (cls : trig -> bool) (t : expr) : res (option (expr * expr)) :=
  match is_sq cls t with
  | Some i => Ok (Some (i, ERat 1))
  | None =>
      match t with
      | EProd ts =>
          (fix first (l : list expr) : res (option (expr * expr)) :=
             match l with
             | [] => Ok None
             | f :: r =>
                 match is_sq cls f with
                 | Some i => c <- op_div fk t f;; Ok (Some (i, c))
                 | None => first r
                 end
             end) ts
      | _ => Ok None
      end
  end.

(** [el in l] for tuples (inner, factor) *)
Definition pair_eq (a b : expr * expr) : res bool :=
  x <- k_eq fk (fst a) (fst b);; if x : bool then k_eq fk (snd a) (snd b) else Ok false.
Definition pmem (el : option (expr * expr)) (l : list (expr * expr)) : res bool :=
  match el with None => Ok false | Some a => anyM (fun b => pair_eq a b) l end.

(** Consistency test of strict mode: every removed term was counted once, as the sin or as the cos
    half of a pair, and the two halves pair off. *)
Definition halves_ok (bs bx : list bool) (cs : list (option (expr * expr))) (both : list (expr * expr)) : bool :=
  let fc c := match c with Some a => existsb (psameb a) both | None => false end in
  pnodup both && pnodup (filter (fun a => existsb (psameb a) both) (psomes cs)) &&
  forallb (fun p => match p with (s, x, c) => Bool.eqb x (xorb s (fc c)) && negb (s && fc c) end)
          (combine (combine bs bx) cs).

(** the loop over identities, simplify.py:123-129 *)
Fixpoint pyth_loop (ids : list (expr * trig)) (e : expr) : res pres :=
  match ids with
  | [] => Ok PNone
  | (q, g) :: r =>
      o <- eq_sum fk q e;;
      match o with
      | None => pyth_loop r e
      | Some (d, rest) =>
          '(f, i) <- factor_match fkey akey d;;
          t <- k_trig fk g i;; t2 <- op_pow fk t (ERat 2);; p <- op_mul fk f t2;; s <- op_add fk p rest;;
          Ok (PNew s)
      end
  end.

(** _pythagorean_perform, simplify.py:65-133 *)
Definition pythagorean (e : expr) : res pres :=
  match e with
  | ESum ts =>
      if negb (has_trig e) then Ok PFalse
      else if negb (gcontains sq_trig e) then Ok PNone
      else
        ss <- mapM (thing_squared is_sin) ts;;
        cs <- mapM (thing_squared is_cos) ts;;
        bs <- mapM (fun s => pmem s (psomes cs)) ss;;
        let both := psomes (keepb ss bs) in
        match both with
        | [] => if has_any e then Raise ValueError else pyth_loop pyth_identities e
        | _ =>
            xs <- mapM (thing_squared is_sincos) ts;;
            bx <- mapM (fun x => pmem x both) xs;;
            guard (negb (k_strict fk) || halves_ok bs bx cs both)
            (r <- k_sum fk (keepb ts (map negb bx) ++ map snd both);; Ok (PNew r))
        end
  | _ => Ok PNone
  end.

(** _pythagorean_complex_perform, simplify.py:136-158 *)
Definition to_sin_cos (f : trig) : option (expr -> res expr) :=
  match f with
  | Tan => Some (fun x => s <- k_trig fk Sin x;; c <- k_trig fk Cos x;; op_div fk s c)
  | Csc => Some (fun x => s <- k_trig fk Sin x;; op_div fk (ERat 1) s)
  | Cot => Some (fun x => c <- k_trig fk Cos x;; s <- k_trig fk Sin x;; op_div fk c s)
  | Sec => Some (fun x => c <- k_trig fk Cos x;; op_div fk (ERat 1) c)
  | _ => None
  end.
Definition pythagorean_complex (e : expr) : res pres :=
  match e with
  | ESum _ =>
      n <- replace_class fk to_sin_cos e;;
      o <- one_fraction fk false n;;
      match o with
      | None => Ok PNone
      | Some n' =>
          '(n2, hit) <- kinder_replace fk pythagorean n';;
          if hit : bool then r <- reciprocate_trigs fk n2;; Ok (PNew r) else Ok PNone
      end
  | _ => Ok PNone
  end.

(** _combine_trigs, simplify.py:218-234 *)
Fixpoint comb_loop (ids : list (expr * trig)) (e : expr) : res pres :=
  match ids with
  | [] => Ok PNone
  | (q, g) :: r =>
      o <- eq_plain fk q e;;
      match o with
      | None => comb_loop r e
      | Some d =>
          '(f, i) <- factor_match fkey akey d;; t <- k_trig fk g i;; p <- op_mul fk f t;; Ok (PNew p)
      end
  end.
Definition combine_trigs (e : expr) : res pres :=
  match e with EProd _ => comb_loop comb_identities e | _ => Ok PNone end.

(** trig_simplify, simplify.py:273-288: result and hit flag *)
Definition trig_simplify (n : nat) (e : expr) : res (expr * bool) :=
  '(e1, h1) <- kinder_replace_many fk has_trig [pythagorean; pythagorean_complex; reciprocate1 fk] e;;
  '(e2, h2) <- kinder_replace_many fk has_trig [combine_trigs; product_to_sum fk n; sectan fk n] e1;;
  Ok (e2, h1 || h2).

(** pythagorean_simplification, simplify.py:61-62 *)
Definition pythagorean_simplification (e : expr) : res expr :=
  '(e', _) <- kinder_replace fk pythagorean e;; Ok e'.

(** simplify, simplify.py:247-270 *)
Definition simplifyE (n : nat) (e : expr) : res expr :=
  e1 <- expand_if fk n e;;
  '(e2, hit) <- (if has_trig e1 then trig_simplify n e1 else Ok (e1, false));;
  e3 <- (if has_log e2 then expand_logs fk n e2 else Ok e2);;
  if hit : bool then Ok e3
  else if is_simpler e3 e then Ok e3 else Ok e.
End TrigSimp.

(** ** Monotonicity *)
Section TMono.
Context (f1 f2 : fkern) (HF : fle f1 f2).
Lemma thing_squared_mono cls t : rle (thing_squared f1 cls t) (thing_squared f2 cls t).
Proof.
  unfold thing_squared. destruct (is_sq cls t); [apply rle_refl|]. destruct t; try apply rle_refl.
  set (t := EProd ts). generalize t. intros t0. clear t. induction ts as [|u ts IH]; [apply rle_refl|]. mono.
Qed.
Lemma pmem_mono o l : rle (pmem f1 o l) (pmem f2 o l).
Proof. unfold pmem, pair_eq. mono. Qed.
Lemma pyth_loop_mono ids e : rle (pyth_loop f1 ids e) (pyth_loop f2 ids e).
Proof. pose proof (eq_sum_mono f1 f2 HF). induction ids as [|[q g] ids IH]; cbn [pyth_loop]; mono. Qed.
Lemma pythagorean_mono e : rle (pythagorean f1 e) (pythagorean f2 e).
Proof.
  pose proof thing_squared_mono. pose proof pmem_mono. pose proof pyth_loop_mono.
  unfold pythagorean. cbv zeta. destruct e; try apply rle_refl. mono. apply strictg_mono; auto. mono.
Qed.
Lemma to_sin_cos_mono f : match to_sin_cos f1 f, to_sin_cos f2 f with
  | Some g1, Some g2 => forall i, rle (g1 i) (g2 i) | None, None => True | _, _ => False end.
Proof. destruct f; cbn; auto; intros; mono. Qed.
Lemma kinder1_mono p1 p2 e : (forall t, rle (p1 t) (p2 t)) -> rle (kinder_replace f1 p1 e) (kinder_replace f2 p2 e).
Proof. intros H. apply kinder_mono; auto. Qed.
Lemma pythagorean_complex_mono e : rle (pythagorean_complex f1 e) (pythagorean_complex f2 e).
Proof.
  pose proof (one_fraction_mono f1 f2 HF). pose proof (reciprocate_trigs_mono f1 f2 HF).
  pose proof (fun e => kinder1_mono _ _ e pythagorean_mono).
  pose proof (replace_class_mono f1 f2 HF _ _ to_sin_cos_mono).
  unfold pythagorean_complex. destruct e; mono.
Qed.
Lemma comb_loop_mono ids e : rle (comb_loop f1 ids e) (comb_loop f2 ids e).
Proof. pose proof (eq_plain_mono f1 f2 HF). induction ids as [|[q g] ids IH]; cbn [comb_loop]; mono. Qed.
Lemma combine_trigs_mono e : rle (combine_trigs f1 e) (combine_trigs f2 e).
Proof. pose proof comb_loop_mono. unfold combine_trigs. destruct e; mono. Qed.
Lemma trig_simplify_mono n m e : (n <= m)%nat -> rle (trig_simplify f1 n e) (trig_simplify f2 m e).
Proof.
  intros H. unfold trig_simplify. apply rle_bind.
  - apply kinder_mono; auto.
    repeat constructor; auto using pythagorean_mono, pythagorean_complex_mono, reciprocate1_mono.
  - intros [e1 h1]. apply rle_bind; [|intros [? ?]; apply rle_refl]. apply kinder_mono; auto.
    repeat constructor; auto using combine_trigs_mono, product_to_sum_mono, sectan_mono.
Qed.
Lemma simplifyE_mono n m e : (n <= m)%nat -> rle (simplifyE f1 n e) (simplifyE f2 m e).
Proof.
  intros H. pose proof (fun e => trig_simplify_mono n m e H). pose proof (fun e => expand_if_mono f1 f2 HF n m e H).
  pose proof (fun e => expand_logs_mono f1 f2 HF n m e H). unfold simplifyE. mono.
Qed.
Lemma pythagorean_simplification_mono e : rle (pythagorean_simplification f1 e) (pythagorean_simplification f2 e).
Proof. pose proof (fun e => kinder1_mono _ _ e pythagorean_mono). unfold pythagorean_simplification. mono. Qed.
End TMono.

(** ** Soundness *)
Open Scope R_scope.
Section TSound.
Context (rho : env) (fk : fkern) (HF : FSound rho fk).
Let HG : GSound rho fk := f_k _ _ HF.
Local Notation W := (wd rho).
Local Notation V := (ev rho).

Lemma rpow_2 x : rpow x (Q2R 2) = x * x.
Proof.
  replace (Q2R 2) with (IZR 2) by (unfold Q2R; simpl; field).
  rewrite rpow_int by (right; lia). simpl. ring.
Qed.
Lemma is_sq_sound cls e i : is_sq cls e = Some i -> W e ->
  exists f, cls f = true /\ W i /\ V e = tev f (V i) * tev f (V i).
Proof.
  destruct e as [| | | | | | | | |b x| | |]; try discriminate. simpl. destruct b as [| | | | | | | | | | |f j|]; try discriminate.
  intros H We. destruct (isq x 2) eqn:E; [|discriminate]. simpl in H. destruct (cls f) eqn:C; [|discriminate].
  injection H as <-. exists f. destruct We as ([Wj _] & _). repeat split; auto. simpl.
  rewrite (isq_ev rho _ _ E). apply rpow_2.
Qed.
Lemma thing_squared_sound cls t i c : thing_squared fk cls t = Ok (Some (i, c)) -> W t ->
  exists f, cls f = true /\ W i /\ W c /\ V t = tev f (V i) * tev f (V i) * V c.
Proof.
  unfold thing_squared. intros H Wt. destruct (is_sq cls t) as [j|] eqn:E.
  - injection H as <- <-. apply is_sq_sound in E as (f & A & B & C); auto. exists f. repeat split; auto.
    rewrite C. simpl. rewrite Q2R_1. ring.
  - destruct t; try discriminate. set (t := EProd ts) in *. assert (Wl : Forall W ts) by now apply wd_prod in Wt.
    revert H Wl. generalize ts. clear E. intros l. induction l as [|u l IH]; [discriminate|]. intros H Wl.
    inversion Wl as [|? ? Wu Wl']; subst. destruct (is_sq cls u) as [j|] eqn:E; [|auto].
    apply bind_ok in H as (d & Hd & H). injection H as <- <-.
    apply (g_div _ _ HG) in Hd as (N & D1 & D2); auto.
    apply is_sq_sound in E as (f & A & B & C); auto. exists f. repeat split; auto. rewrite D2, <- C. field. auto.
Qed.

Lemma psameb_eq a b : psameb a b = true -> a = b.
Proof.
  unfold psameb, sameb. intros H. destruct a as [a1 a2], b as [b1 b2]. simpl in H.
  apply andb_prop in H as [H1 H2]. apply andb_prop in H1 as [A B]. apply andb_prop in H2 as [C D].
  apply negb_true_iff in B, D. f_equal; apply eqb_coin; auto.
Qed.
Lemma psameb_refl a : psameb a a = true.
Proof. unfold psameb, sameb. now rewrite !eeqb_refl, !coin_refl. Qed.
Lemma pnodup_NoDup l : pnodup l = true -> NoDup l.
Proof.
  induction l as [|a l IH]; simpl; intros H; constructor; apply andb_prop in H as [A B]; auto.
  intros I. apply negb_true_iff in A. assert (existsb (peeqb a) l = true); [|congruence].
  apply existsb_exists. exists a. split; auto. unfold peeqb. now rewrite !eeqb_refl.
Qed.
Lemma inb_In a l : existsb (psameb a) l = true <-> In a l.
Proof.
  rewrite existsb_exists. split.
  - intros (x & A & B). apply psameb_eq in B as <-. auto.
  - intros A. exists a. split; auto. apply psameb_refl.
Qed.
Lemma pmem_In o l : pmem fk o l = Ok true -> exists a, o = Some a /\ In a l.
Proof.
  destruct o as [a|]; [|discriminate]. simpl. intros H. exists a. split; auto. revert H.
  induction l as [|b l IH]; [discriminate|]. cbn [anyM]. intros H. apply bind_ok in H as (x & Hx & H).
  destruct x; [|right; auto]. left. unfold pair_eq in Hx. apply bind_ok in Hx as (y & Hy & Hx). destruct y; [|discriminate].
  apply (f_eq _ _ HF) in Hy, Hx. destruct a, b; simpl in *; subst; auto.
Qed.

Lemma Rsum_cons x l : Rsum (x :: l) = x + Rsum l.
Proof. reflexivity. Qed.
Definition sv (f : trig) (p : expr * expr) : R := tev f (V (fst p)) * tev f (V (fst p)) * V (snd p).

Lemma halves_sum (both : list (expr * expr)) ts : forall ss cs bs bx,
  Forall2 (fun t s => forall a, s = Some a -> V t = sv Sin a) ts ss ->
  Forall2 (fun t c => forall a, c = Some a -> V t = sv Cos a) ts cs ->
  Forall2 (fun s b => b = true -> s <> None) ss bs ->
  List.length bx = List.length ts ->
  forallb (fun p => match p with (s, x, c) => 
     Bool.eqb x (xorb s (match c with Some a => existsb (psameb a) both | None => false end)) &&
     negb (s && match c with Some a => existsb (psameb a) both | None => false end) end)
          (combine (combine bs bx) cs) = true ->
  Rsum (map V ts) = Rsum (map V (keepb ts (map negb bx))) + Rsum (map (sv Sin) (psomes (keepb ss bs)))
    + Rsum (map (sv Cos) (filter (fun a => existsb (psameb a) both) (psomes cs))).
Proof.
  induction ts as [|t ts IH]; intros ss cs bs bx Hs Hc Hb Hx HA.
  - inversion Hs; subst. inversion Hc; subst. inversion Hb; subst. unfold keepb. simpl. ring.
  - inversion Hs as [|? s ? ss' A1 A2]; subst. inversion Hc as [|? c ? cs' B1 B2]; subst.
    inversion Hb as [|? b ? bs' C1 C2]; subst. destruct bx as [|x bx]; [discriminate|]. injection Hx as Hx.
    cbn [combine forallb] in HA. apply andb_prop in HA as [HA1 HA2]. apply andb_prop in HA1 as [E1 E2].
    apply eqb_prop in E1. apply negb_true_iff in E2. specialize (IH ss' cs' bs' bx A2 B2 C2 Hx HA2).
    unfold keepb in *. cbn [map combine filter snd].
    set (fc := match c with Some a => existsb (psameb a) both | None => false end) in *.
    assert (X : Rsum (map (sv Cos) (filter (fun a => existsb (psameb a) both) (psomes (c :: cs')))) =
       (if fc then V t else 0) + Rsum (map (sv Cos) (filter (fun a => existsb (psameb a) both) (psomes cs')))).
    { unfold psomes, fc. cbn [flat_map]. rewrite filter_app, map_app, Rsum_app. f_equal.
      destruct c as [a|]; simpl; [|ring]. destruct (existsb (psameb a) both); simpl; [|ring].
      rewrite (B1 _ eq_refl). ring. }
    rewrite X, Rsum_cons, IH. clear X IH.
    destruct b; simpl in E1, E2.
    + destruct fc; [discriminate|]. simpl in E1. subst x. simpl. destruct s as [a|]; [|exfalso; now apply C1].
      unfold psomes. cbn [flat_map app map]. rewrite Rsum_cons, (A1 _ eq_refl). ring.
    + subst x. destruct fc; simpl; ring.
Qed.

Lemma pyth_pair ts ss cs bs bx both : Forall W ts ->
  mapM (thing_squared fk is_sin) ts = Ok ss -> mapM (thing_squared fk is_cos) ts = Ok cs ->
  mapM (fun s => pmem fk s (psomes cs)) ss = Ok bs -> both = psomes (keepb ss bs) ->
  List.length bx = List.length ts -> halves_ok bs bx cs both = true ->
  Forall W (keepb ts (map negb bx)) /\ Forall W (map snd both) /\
  Rsum (map V ts) = Rsum (map V (keepb ts (map negb bx))) + Rsum (map V (map snd both)).
Proof.
  intros Wt Hs Hc Hb HB Hx HO.
  apply (mapM_rel _ W (fun t s => forall a, s = Some a -> W (snd a) /\ V t = sv Sin a)) in Hs; auto.
  2:{ intros t u Ht W0 [i c] ->. apply thing_squared_sound in Ht as (f & A & B & C & D); auto.
      destruct f; try discriminate. auto. }
  apply (mapM_rel _ W (fun t s => forall a, s = Some a -> V t = sv Cos a)) in Hc; auto.
  2:{ intros t u Ht W0 [i c] ->. apply thing_squared_sound in Ht as (f & A & B & C & D); auto.
      destruct f; try discriminate. auto. }
  apply (mapM_rel _ (fun _ => True) (fun s b => b = true -> exists a, s = Some a /\ In a (psomes cs))) in Hb.
  2:{ intros s b H _ ->. now apply pmem_In in H. }
  2:{ clear. induction ss; auto. }
  unfold halves_ok in HO. apply andb_prop in HO as [HO H3]. apply andb_prop in HO as [H1 H2].
  apply pnodup_NoDup in H1, H2.
  assert (P : Permutation (filter (fun a => existsb (psameb a) both) (psomes cs)) both).
  { apply NoDup_Permutation; auto. intros a. rewrite filter_In, inb_In. split; [tauto|]. intros I. split; auto.
    subst both. clear -I Hb. unfold keepb in I. induction Hb as [|s b ss bs C _ IH]; [destruct I|].
    cbn [combine filter snd] in I. destruct b; [|auto]. cbn [map fst] in I. unfold psomes in I. cbn [flat_map] in I.
    apply in_app_or in I as [I|I]; [|auto]. destruct s as [a'|]; [|destruct I]. destruct I as [->|[]].
    destruct (C eq_refl) as (a' & E & J). injection E as <-. auto. }
  split; [|split].
  - clear -Wt. unfold keepb. revert bx. induction Wt as [|t ts Ht _ IH]; intros [|x bx]; simpl; auto.
    destruct x; simpl; auto.
  - subst both. clear -Hs. unfold keepb. revert bs. induction Hs as [|t s ts ss A _ IH]; intros [|b bs]; simpl; auto.
    destruct b; simpl; auto. unfold psomes. simpl. rewrite map_app. apply Forall_app. split; [|apply IH].
    destruct s as [a|]; simpl; auto. constructor; auto. now apply (A a).
  - rewrite (halves_sum both ts ss cs bs bx); auto.
    + rewrite <- HB, (Rsum_perm _ _ (Permutation_map (sv Cos) P)), Rplus_assoc. f_equal.
      clear. induction both as [|a l IH]; cbn [map]; rewrite ?Rsum_cons; [simpl; ring|]. rewrite <- IH. unfold sv. cbn [tev].
      pose proof (sin2_cos2 (V (fst a))) as S. unfold Rsqr in S.
      replace (V (snd a)) with (1 * V (snd a)) at 3 by ring. rewrite <- S. ring.
    + clear -Hs. induction Hs; constructor; auto. intros a E. now apply H.
    + clear -Hb. induction Hb; constructor; auto. intros E. destruct (H E) as (? & -> & _). discriminate.
Qed.

Definition id_ok (k : R -> R) (p : expr * trig) : Prop :=
  forall s, tdom (snd p) (V (s akey)) -> V (inst s (fst p)) = V (s fkey) * k (tev (snd p) (V (s akey))).

Lemma pyth_ids_ok : Forall (fun p => (exists qs, fst p = ESum qs) /\ id_ok (fun x => x * x) p) pyth_identities.
Proof.
  unfold pyth_identities.
  repeat (apply Forall_cons; [split; [eexists; reflexivity|]; intros s T; cbn in *;
    rewrite ?rpow_2, ?Q2R_m1;
    pose proof (sin2_cos2 (V (s akey))) as S; unfold Rsqr in S;
    revert T S; generalize (sin (V (s akey))) (cos (V (s akey))) (V (s fkey)); intros x y f T S|]); try apply Forall_nil.
  - transitivity (f * ((x * x + y * y) / (y * y))); [field; auto|]. rewrite S. field; auto.
  - transitivity (f * (1 - x * x)); [ring|]. rewrite <- S. ring.
  - transitivity (f * (1 - y * y)); [ring|]. rewrite <- S. ring.
  - transitivity (f * ((1 - y * y) / (y * y))); [field; auto|]. rewrite <- S. field; auto.
  - transitivity (f * ((x * x + y * y) / (x * x))); [field; auto|]. rewrite S. field; auto.
  - transitivity (f * ((1 - x * x) / (x * x))); [field; auto|]. rewrite <- S. field; auto.
Qed.
Lemma comb_ids_ok : Forall (id_ok (fun x => x)) comb_identities.
Proof.
  unfold comb_identities.
  repeat (apply Forall_cons; [intros s T; cbn in *|]); try apply Forall_nil; field; auto.
Qed.

Lemma pyth_loop_sound ts ids : Forall (fun p => (exists qs, fst p = ESum qs) /\ id_ok (fun x => x * x) p) ids ->
  forall e', pyth_loop fk ids (ESum ts) = Ok (PNew e') -> W (ESum ts) -> good rho (ESum ts) e'.
Proof.
  induction 1 as [|[q g] ids [[qs Eq] Id] _ IH]; intros e' H We; [discriminate|]. cbn [pyth_loop] in H.
  apply bind_ok in H as (o & Ho & H). destruct o as [[d rest]|]; [|auto]. simpl in Eq. subst q.
  pose proof (eq_sum_keys _ _ _ _ _ Ho) as ND.
  apply (eq_sum_sound rho fk HF) in Ho as (Wr & Vd & Ag); auto.
  apply bind_ok in H as ([f i] & Hfi & H).
  apply (factor_match_ok _ _ _ _ _ W) in Hfi as (Wf & Wi & s & As & <- & <-); auto.
  apply bind_ok in H as (t & Ht & H). apply bind_ok in H as (t2 & Ht2 & H). apply bind_ok in H as (p & Hp & H).
  apply bind_ok in H as (u & Hu & H). injection H as <-.
  apply (f_trig _ _ HF) in Ht as (T0 & T1 & T2); auto.
  apply (g_opow _ _ HG) in Ht2 as (_ & Q1 & Q2); auto; [|exact I].
  apply (g_mul _ _ HG) in Hp as [P1 P2]; auto. apply (g_add _ _ HG) in Hu as [U1 U2]; auto.
  split; auto. rewrite (Ag s As), U2, P2, Q2, T2. specialize (Id s T0). cbn [fst snd] in Id. rewrite Id.
  change (V (ERat 2)) with (Q2R 2). now rewrite rpow_2.
Qed.
Lemma comb_loop_sound ids : Forall (id_ok (fun x => x)) ids ->
  forall e e', comb_loop fk ids e = Ok (PNew e') -> W e -> good rho e e'.
Proof.
  induction 1 as [|[q g] ids Id _ IH]; intros e e' H We; [discriminate|]. cbn [comb_loop] in H.
  apply bind_ok in H as (o & Ho & H). destruct o as [d|]; [|auto].
  pose proof (eq_plain_keys _ _ _ _ Ho) as ND.
  apply (eq_plain_sound rho fk HF) in Ho as (Ag & Vd); auto.
  apply bind_ok in H as ([f i] & Hfi & H).
  apply (factor_match_ok _ _ _ _ _ W) in Hfi as (Wf & Wi & s & As & <- & <-); auto.
  apply bind_ok in H as (t & Ht & H). apply bind_ok in H as (p & Hp & H). injection H as <-.
  apply (f_trig _ _ HF) in Ht as (T0 & T1 & T2); auto.
  apply (g_mul _ _ HG) in Hp as [P1 P2]; auto.
  split; auto. specialize (Id s T0). cbn [fst snd] in Id. now rewrite (Ag s As), P2, T2, Id.
Qed.

Theorem pythagorean_sound e e' : pythagorean fk e = Ok (PNew e') -> W e -> good rho e e'.
Proof.
  unfold pythagorean. intros H We. destruct e as [| | | | | | |ts| | | | |]; try discriminate.
  destruct (negb _); [discriminate|]. destruct (negb _); [discriminate|].
  apply bind_ok in H as (ss & Hs & H). apply bind_ok in H as (cs & Hc & H). apply bind_ok in H as (bs & Hb & H).
  cbv zeta in H. remember (psomes (keepb ss bs)) as both eqn:EB. destruct both as [|a both].
  - destruct (has_any _); [discriminate|]. exact (pyth_loop_sound ts _ pyth_ids_ok e' H We).
  - apply bind_ok in H as (xs & Hx & H). apply bind_ok in H as (bx & Hbx & H). apply guard_ok in H as [G H].
    rewrite (f_strict _ _ HF) in G. simpl in G. apply bind_ok in H as (r & Hr & H). injection H as <-.
    pose proof We as Wt. apply wd_sum in Wt.
    destruct (pyth_pair ts ss cs bs bx (a :: both)) as (A & B & C); auto.
    { apply mapM_ok in Hx, Hbx. clear -Hx Hbx. transitivity (List.length xs); [clear Hx|clear Hbx].
      induction Hbx; simpl; auto. induction Hx; simpl; auto. }
    apply (g_sum _ _ HG) in Hr as [R1 R2]; [|now apply Forall_app].
    split; auto. rewrite R2, map_app, Rsum_app. cbn [ev]. now rewrite C.
Qed.

Lemma Some_inj {A} (a b : A) : Some a = Some b -> a = b.
Proof. congruence. Qed.
Lemma to_sin_cos_sound f g i e' : to_sin_cos fk f = Some g -> g i = Ok e' -> W i -> W e' /\ V e' = tev f (V i).
Proof.
  intros E H Wi. destruct f; try discriminate; cbn [to_sin_cos] in E; apply Some_inj in E; subst g.
  - apply bind_ok in H as (s & Hs & H). apply bind_ok in H as (c & Hc & H).
    apply (f_trig _ _ HF) in Hs as (_ & S1 & S2); auto. apply (f_trig _ _ HF) in Hc as (_ & C1 & C2); auto.
    apply (g_div _ _ HG) in H as (_ & D1 & D2); auto. split; auto. now rewrite D2, S2, C2.
  - apply bind_ok in H as (s & Hs & H).
    apply (f_trig _ _ HF) in Hs as (_ & S1 & S2); auto.
    apply (g_div _ _ HG) in H as (_ & D1 & D2); [|exact I|auto]. split; auto. rewrite D2, S2.
    change (V (ERat 1)) with (Q2R 1). rewrite Q2R_1. cbn. unfold Rdiv. ring.
  - apply bind_ok in H as (s & Hs & H).
    apply (f_trig _ _ HF) in Hs as (_ & S1 & S2); auto.
    apply (g_div _ _ HG) in H as (_ & D1 & D2); [|exact I|auto]. split; auto. rewrite D2, S2.
    change (V (ERat 1)) with (Q2R 1). rewrite Q2R_1. cbn. unfold Rdiv. ring.
  - apply bind_ok in H as (c & Hc & H). apply bind_ok in H as (s & Hs & H).
    apply (f_trig _ _ HF) in Hs as (_ & S1 & S2); auto. apply (f_trig _ _ HF) in Hc as (_ & C1 & C2); auto.
    apply (g_div _ _ HG) in H as (_ & D1 & D2); auto. split; auto. now rewrite D2, S2, C2.
Qed.

Lemma good_trans e1 e2 e3 : good rho e1 e2 -> good rho e2 e3 -> good rho e1 e3.
Proof. intros [A B] [C D]. split; auto. congruence. Qed.
Lemma good_refl e : W e -> good rho e e.
Proof. now split. Qed.

Theorem pythagorean_complex_sound e e' : pythagorean_complex fk e = Ok (PNew e') -> W e -> good rho e e'.
Proof.
  unfold pythagorean_complex. intros H We. destruct e; try discriminate.
  apply bind_ok in H as (n & Hn & H). apply bind_ok in H as (o & Ho & H). destruct o as [n'|]; [|discriminate].
  apply bind_ok in H as ([n2 hit] & Hk & H). destruct hit; [|discriminate].
  apply bind_ok in H as (r & Hr & H). injection H as <-.
  apply (replace_class_sound rho fk HF _ to_sin_cos_sound) in Hn; auto.
  apply (one_fraction_sound rho fk HF) in Ho; [|apply Hn].
  apply (kinder_sound rho fk HF) in Hk; [|constructor; [apply pythagorean_sound|constructor]|apply Ho].
  apply (reciprocate_trigs_sound rho fk HF) in Hr; [|apply Hk].
  eauto using good_trans.
Qed.
Theorem combine_trigs_sound e e' : combine_trigs fk e = Ok (PNew e') -> W e -> good rho e e'.
Proof.
  unfold combine_trigs. destruct e; try discriminate. apply comb_loop_sound, comb_ids_ok.
Qed.
Theorem trig_simplify_sound n e e' h : trig_simplify fk n e = Ok (e', h) -> W e -> good rho e e'.
Proof.
  unfold trig_simplify. intros H We. apply bind_ok in H as ([e1 h1] & H1 & H).
  apply bind_ok in H as ([e2 h2] & H2 & H). injection H as <- <-.
  apply (kinder_sound rho fk HF) in H1; auto.
  2:{ exact (Forall_cons _ pythagorean_sound (Forall_cons _ pythagorean_complex_sound
       (Forall_cons _ (reciprocate1_sound rho fk HF) (Forall_nil _)))). }
  apply (kinder_sound rho fk HF) in H2; [| |apply H1].
  2:{ exact (Forall_cons _ combine_trigs_sound (Forall_cons _ (product_to_sum_sound rho fk HF n)
       (Forall_cons _ (sectan_sound rho fk HF n) (Forall_nil _)))). }
  eauto using good_trans.
Qed.
Theorem pythagorean_simplification_sound e e' : pythagorean_simplification fk e = Ok e' -> W e -> good rho e e'.
Proof.
  unfold pythagorean_simplification. intros H We. apply bind_ok in H as ([a h] & Ha & H). injection H as <-.
  apply (kinder_sound rho fk HF) in Ha; auto. constructor; [apply pythagorean_sound|constructor].
Qed.
Theorem simplifyE_sound n e e' : simplifyE fk n e = Ok e' -> W e -> good rho e e'.
Proof.
  unfold simplifyE. intros H We. apply bind_ok in H as (e1 & H1 & H). apply bind_ok in H as ([e2 hit] & H2 & H).
  apply bind_ok in H as (e3 & H3 & H).
  apply (expand_if_sound rho fk HF) in H1; auto.
  assert (G2 : good rho e1 e2).
  { destruct (has_trig e1); [eapply trig_simplify_sound; eauto; apply H1|]. injection H2 as <- <-. apply good_refl, H1. }
  assert (G3 : good rho e2 e3).
  { destruct (has_log e2); [eapply (expand_logs_sound rho fk HF); eauto; apply G2|]. injection H3 as <-. apply good_refl, G2. }
  assert (G : good rho e e3) by eauto using good_trans.
  destruct hit; [injection H as <-; auto|]. destruct (is_simpler e3 e); injection H as <-; auto using good_refl.
Qed.
End TSound.
