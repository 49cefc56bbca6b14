(** * Factor: Sum.factor (src/simpy/expr.py:956-1026), model and soundness (C45). *)
From Verif Require Export ExpandSound.

(** A factor of a term: base, absolute value of the exponent, sign of the exponent. *)
Definition fac := (expr * Q * bool)%type.

(** _df's factor list [_df(term)[1]], expr.py:966-978.  For a product only the first entry of
    each factor's own list is taken. *)
Fixpoint df_factors (e : expr) : res (list fac) :=
  let fix go (l : list expr) : res (list fac) :=
    match l with
    | [] => Ok []
    | t :: r =>
        if is_acc t then go r
        else fs <- df_factors t;;
             match fs with
             | [] => Raise IndexError
             | f :: _ => fs' <- go r;; Ok (f :: fs')
             end
    end in
  match e with
  | EProd ts => go ts
  | EPow b (ERat q) => Ok [(b, Qabs q, qgt0 q)]
  | ERat _ => Ok [(e, 1%Q, true)]
  | _ => Ok [(e, 1%Q, true)]
  end.
(** _df's coefficient [_df(term)[0]] *)
Definition df_coeff (e : expr) : res expr :=
  match e with
  | EProd _ => prod_skip (fst (decon_prod e))
  | ERat _ => Ok e
  | _ => Ok (ERat 1)
  end.

Section Factor.
Context (fk : fkern).

(** The factor of [l] with the same repr and the same exponent sign, expr.py:990-994. *)
Fixpoint find_fac (c : fac) (l : list fac) : res (option Q) :=
  match l with
  | [] => Ok None
  | t :: r =>
      rc <- k_repr fk (fst (fst c));; rt <- k_repr fk (fst (fst t));;
      if String.eqb rc rt && Bool.eqb (snd c) (snd t) then Ok (Some (snd (fst t)))
      else find_fac c r
  end.
Definition qmin (a b : Q) : Q := if Qle_bool a b then a else b.

(** One round of the loop expr.py:985-996 over the surviving common factors. *)
Fixpoint common_step (cs : list fac) (l : list fac) : res (list fac) :=
  match cs with
  | [] => Ok []
  | c :: r =>
      o <- find_fac c l;; r' <- common_step r l;;
      Ok (match o with Some q => (fst (fst c), qmin (snd (fst c)) q, snd c) :: r' | None => r' end)
  end.

(** [x.value.denominator == 1], defined for Rat only. *)
Definition is_den1 (e : expr) : res bool :=
  match e with ERat q => Ok (denom q =? 1)%Z | _ => Raise AttributeError end.
(** [c < 0] *)
Definition lt0 (e : expr) : res bool :=
  match e with
  | ERat q => Ok (qlt0 q)
  | EInf => Ok false | ENegInf => Ok true
  | _ => Raise TypeError
  end.
(** min(abs(c), abs(cc)) for two Rats *)
Definition min_num (a b : expr) : res expr :=
  match a, b with
  | ERat p, ERat q => Ok (if Qle_bool p q then a else b)
  | _, _ => Stop Unmodelled
  end.

(** common_coeff, expr.py:999-1010; [None] when the coefficients have no common one. *)
Fixpoint common_coeff (cc : expr) (l : list expr) : res (option expr) :=
  match l with
  | [] => Ok (Some cc)
  | c :: r =>
      x <- op_div fk c cc;; y <- op_div fk cc c;;
      d1 <- is_den1 x;;
      d <- (if d1 : bool then Ok true else is_den1 y);;
      if d : bool then
        a <- op_abs fk c;; b <- op_abs fk cc;; m <- min_num a b;; common_coeff m r
      else Ok None
  end.

(** _makeprod, expr.py:1014-1015 *)
Definition makeprod (fs : list fac) : res expr :=
  match fs with
  | [] => Ok (ERat 1)
  | _ =>
      ps <- mapM (fun f => k_pow fk (fst (fst f)) (if snd f : bool then rat (snd (fst f)) else rat (- snd (fst f)))) fs;;
      k_prod fk ps
  end.

(** The common factor that gets divided out, expr.py:980-1019. *)
Definition common_expr (ts : list expr) : res expr :=
  coeffs <- mapM df_coeff ts;;
  fss <- mapM df_factors ts;;
  match fss, coeffs with
  | f0 :: fs, c0 :: cs =>
      common <- foldM common_step fs f0;;
      a0 <- op_abs fk c0;;
      cc <- common_coeff a0 cs;;
      neg <- allM lt0 coeffs;;
      cc' <- match cc with
             | Some q => if neg : bool then m <- op_mul fk q (ERat (-1));; Ok (Some m) else Ok cc
             | None => Ok None
             end;;
      ce <- makeprod common;;
      match cc' with Some q => op_mul fk ce q | None => Ok ce end
  | _, _ => Raise IndexError
  end.

(** Sum.factor, expr.py:956-1026 *)
Definition factorE (ts : list expr) : res expr :=
  ce <- common_expr ts;;
  nts <- mapM (fun t => op_div fk t ce) ts;;
  s <- k_sum fk nts;;
  op_mul fk ce s.
End Factor.

Section FactorMono.
Context (f1 f2 : fkern) (HF : fle f1 f2).
Lemma find_fac_mono c l : rle (find_fac f1 c l) (find_fac f2 c l).
Proof. induction l as [|t l IH]; cbn [find_fac]; mono. Qed.
Lemma common_step_mono cs l : rle (common_step f1 cs l) (common_step f2 cs l).
Proof. pose proof find_fac_mono. induction cs as [|t cs IH]; cbn [common_step]; mono. Qed.
Lemma common_coeff_mono l : forall c, rle (common_coeff f1 c l) (common_coeff f2 c l).
Proof. induction l as [|t l IH]; intros c; cbn [common_coeff]; mono. Qed.
Lemma makeprod_mono fs : rle (makeprod f1 fs) (makeprod f2 fs).
Proof. unfold makeprod. mono. Qed.
Lemma factorE_mono ts : rle (factorE f1 ts) (factorE f2 ts).
Proof.
  pose proof common_step_mono. pose proof common_coeff_mono. pose proof makeprod_mono.
  unfold factorE, common_expr. mono.
Qed.
End FactorMono.

Open Scope R_scope.
Section FactorSound.
Context (rho : env) (fk : fkern) (HF : FSound rho fk).
Let HG : GSound rho fk := f_k _ _ HF.

Definition fwd (f : fac) : Prop := wd rho (fst (fst f)).

Lemma df_factors_wd e : forall fs, df_factors e = Ok fs -> wd rho e -> Forall fwd fs.
Proof.
  assert (L : forall e, wd rho e -> Forall fwd [(e, 1%Q, true)]) by (intros; repeat constructor; auto).
  induction e as [q| | | | | | |ts IH|ts IH|b x IHb IHx|i b IHi IHb|f i IHi|i IHi] using expr_ind';
    intros fs H W; try (injection H as <-; now apply L); try (destruct W; fail).
  - cbn [df_factors] in H. apply wd_prod in W as [W _]. revert fs H.
    induction IH as [|t l Ht Hl IHl]; intros fs H; [injection H as <-; constructor|].
    inversion W; subst. destruct (is_acc t); [now apply IHl|].
    apply bind_ok in H as (f1 & Hf & H). destruct f1 as [|f f1]; [discriminate|].
    apply bind_ok in H as (f2 & Hf2 & H). injection H as <-.
    apply Ht in Hf; auto. inversion Hf; subst. constructor; auto.
  - cbn [df_factors] in H. destruct x; injection H as <-; try (now apply L).
    destruct W as (Wb & _). repeat constructor; auto.
Qed.

Lemma common_step_wd cs l : forall r, common_step fk cs l = Ok r -> Forall fwd cs -> Forall fwd r.
Proof.
  induction cs as [|c cs IH]; intros r H W; cbn [common_step] in H; [injection H as <-; auto|].
  apply bind_ok in H as (o & _ & H). apply bind_ok in H as (r' & Hr & H). inversion W; subst.
  specialize (IH _ Hr). destruct o; injection H as <-; auto.
Qed.

Lemma common_fold_wd l : forall cs r, foldM (common_step fk) l cs = Ok r -> Forall fwd cs -> Forall fwd r.
Proof.
  induction l as [|x l IH]; intros cs r H W; cbn [foldM] in H; [injection H as <-; auto|].
  apply bind_ok in H as (c1 & H1 & H). eapply IH; eauto. eapply common_step_wd; eauto.
Qed.

Lemma makeprod_wd fs e : makeprod fk fs = Ok e -> Forall fwd fs -> wd rho e.
Proof.
  intros H W. destruct fs as [|f0 fs0]; [injection H as <-; exact I|].
  unfold makeprod in H. apply bind_ok in H as (ps & Hps & H). apply mapM_ok in Hps.
  assert (A : Forall (wd rho) ps).
  { clear H. induction Hps as [|f p l l' Hf _ IHl]; constructor; inversion W; subst; auto.
    destruct (snd f); apply (g_pow _ _ HG) in Hf as (_ & A & _); auto; exact I. }
  now apply (g_prod _ _ HG) in H as [P _].
Qed.

Lemma df_coeff_wd e c : df_coeff e = Ok c -> wd rho e -> wd rho c.
Proof.
  intros H W. destruct e; try (injection H as <-; exact I); try (destruct W; fail).
  unfold df_coeff in H. apply wd_prod in W as [W O].
  apply (prod_skip_sound rho) in H as [A _]; auto.
  - simpl. destruct (filter is_acc ts) as [|c0 cs] eqn:E; [repeat constructor|].
    rewrite <- E. now apply Forall_filter.
  - simpl. unfold one_const in *. destruct (filter is_acc ts) as [|c0 cs] eqn:E; [simpl; lia|].
    assert (F : forall l, Forall (fun e => is_acc e = true) l -> filter is_acc l = l).
    { induction 1 as [|x l Hx _ IHl]; simpl; auto. now rewrite Hx, IHl. }
    rewrite F; auto. rewrite <- E. apply filter_all.
Qed.

Lemma common_coeff_wd l : forall c q, common_coeff fk c l = Ok (Some q) -> wd rho c -> wd rho q.
Proof.
  induction l as [|x l IH]; intros c q H W; cbn [common_coeff] in H; [injection H as <-; auto|].
  apply bind_ok in H as (x1 & _ & H). apply bind_ok in H as (y & _ & H).
  apply bind_ok in H as (d1 & _ & H). apply bind_ok in H as (d & _ & H). destruct d; [|discriminate].
  apply bind_ok in H as (a & _ & H). apply bind_ok in H as (b & _ & H). apply bind_ok in H as (m & Hm & H).
  eapply IH; eauto. destruct a, b; try discriminate. simpl in Hm. destruct (Qle_bool q0 q1); injection Hm as <-; exact I.
Qed.

Lemma common_expr_wd ts e : common_expr fk ts = Ok e -> Forall (wd rho) ts -> wd rho e.
Proof.
  intros H W. unfold common_expr in H. apply bind_ok in H as (cs & Hcs & H).
  apply bind_ok in H as (fss & Hf & H). apply mapM_ok in Hcs, Hf.
  assert (A : Forall (wd rho) cs).
  { clear -W Hcs. induction Hcs as [|t c l l' H _ IH]; constructor; inversion W; subst; auto. eapply df_coeff_wd; eauto. }
  assert (B : Forall (Forall fwd) fss).
  { clear -W Hf. induction Hf as [|t c l l' H _ IH]; constructor; inversion W; subst; auto. eapply df_factors_wd; eauto. }
  destruct fss as [|f0 fs]; [discriminate|]. destruct cs as [|c0 cs]; [discriminate|].
  apply bind_ok in H as (common & Hc & H). apply bind_ok in H as (a0 & Ha & H).
  apply bind_ok in H as (cc & Hcc & H). apply bind_ok in H as (neg & _ & H).
  apply bind_ok in H as (cc' & Hcc' & H). apply bind_ok in H as (ce & Hce & H).
  inversion A; subst. inversion B; subst.
  apply common_fold_wd in Hc; auto. apply makeprod_wd in Hce; auto.
  apply (g_oabs _ _ HG) in Ha as [Wa _]; auto.
  assert (Wq : forall q, cc' = Some q -> wd rho q).
  { intros q ->. destruct cc as [q0|]; [|discriminate]. apply common_coeff_wd in Hcc; auto.
    destruct neg; [|injection Hcc' as ->; auto]. apply bind_ok in Hcc' as (m & Hm & Hcc'). injection Hcc' as <-.
    apply (g_mul _ _ HG) in Hm as [M _]; auto. exact I. }
  destruct cc' as [q|]; [|injection H as <-; auto]. now apply (g_mul _ _ HG) in H as [R _]; auto.
Qed.

Theorem factorE_sound ts e : factorE fk ts = Ok e -> wd rho (ESum ts) ->
  wd rho e /\ ev rho e = ev rho (ESum ts).
Proof.
  intros H W. apply wd_sum in W. unfold factorE in H. apply bind_ok in H as (ce & Hce & H).
  apply bind_ok in H as (nts & Hn & H). apply bind_ok in H as (s & Hs & H).
  apply common_expr_wd in Hce; auto.
  assert (M : Forall (wd rho) nts /\ ev rho ce * Rsum (map (ev rho) nts) = Rsum (map (ev rho) ts)).
  { apply mapM_ok in Hn. clear Hs H. induction Hn as [|t n l l' Ht _ IH]; [simpl; split; auto; ring|].
    inversion W; subst. destruct (IH H2) as [A B].
    apply (g_div _ _ HG) in Ht as (D0 & D1 & D2); auto. split; auto. simpl. rewrite Rmult_plus_distr_l, B, D2.
    f_equal. field. auto. }
  destruct M as [M1 M2]. apply (g_sum _ _ HG) in Hs as [S1 S2]; auto.
  apply (g_mul _ _ HG) in H as [R1 R2]; auto. split; auto. rewrite R2, S2, M2. reflexivity.
Qed.
End FactorSound.
