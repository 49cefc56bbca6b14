(** * ReadRepr: the text repr() prints is read back (by the reader of Read.v) as a formula with the
    same value (for C75). *)
From Coquelicot Require Import Coquelicot.
From Coq Require Import DecimalString DecimalZ DecimalFacts.
From Verif Require Import Base Expr Kernel Sem RealLemmas Sound SoundPow Atoms ExpandSound Frag Canon Read CanonR.
From Coq Require Import Permutation.

Local Ltac splits := repeat match goal with |- _ /\ _ => split end.

(** ** Numbers *)
Lemma uint_ids u : all_id (NilEmpty.string_of_uint u) = true.
Proof. induction u; cbn [NilEmpty.string_of_uint all_id]; auto. Qed.
Lemma uint0_ids u : all_id (NilZero.string_of_uint u) = true /\ NilZero.string_of_uint u <> ""%string.
Proof. destruct u; (split; [first [reflexivity|exact (uint_ids _)|apply (uint_ids (_ u))]|discriminate]). Qed.
Lemma fun_not_num w u : NilZero.uint_of_string w = Some u -> is_fun w = false.
Proof.
  intros H. destruct (is_fun w) eqn:E; auto. unfold is_fun in E. apply existsb_exists in E as (p & Hp & E). apply String.eqb_eq in E. subst w.
  repeat (destruct Hp as [<-|Hp]; [discriminate|]). destruct Hp.
Qed.
Lemma read_nat z : (0 <= z)%Z -> G LAtom (lex (str_Z z)) (TNum z).
Proof.
  intros Hz. assert (E : exists u, Z.to_int z = Decimal.Pos u /\ u <> Decimal.Nil).
  { destruct z as [|p|p]; [exists (Decimal.D0 Decimal.Nil); now split| |lia]. exists (Pos.to_uint p). split; auto.
    apply DecimalPos.Unsigned.to_uint_nonnil. }
  destruct E as (u & E & Nu). unfold str_Z. rewrite E. cbn [NilZero.string_of_int]. destruct (uint0_ids u) as [I1 I2]. rewrite lex_id by auto.
  assert (P : NilZero.uint_of_string (NilZero.string_of_uint u) = Some u) by now apply NilZero.usu.
  replace z with (Z.of_uint u); [apply g_num; eauto using fun_not_num|].
  pose proof (DecimalZ.of_to z) as O. rewrite E in O. exact O.
Qed.
Lemma read_neg z : (z < 0)%Z -> G LUnary (lex (str_Z z)) (TNeg (TNum (- z))).
Proof.
  intros Hz. destruct z as [|p|p]; try lia. pose proof (read_nat (Z.pos p) ltac:(lia)) as H. unfold str_Z in *. cbn [Z.to_int NilZero.string_of_int] in *.
  rewrite lex_mark by reflexivity. change (mark "-") with [Mk "-"]. cbn [app]. apply g_neg. now apply g_pu, g_ap.
Qed.
Lemma read_Z z : exists t, G LUnary (lex (str_Z z)) t /\ forall rho, tval rho t = IZR z.
Proof.
  destruct (Z_lt_le_dec z 0) as [H|H].
  - eexists. split; [apply read_neg; auto|]. intros rho. cbn [tval]. rewrite opp_IZR. lra.
  - eexists. split; [apply g_pu, g_ap, read_nat; auto|]. reflexivity.
Qed.
Lemma read_Q q : denom q <> 1%Z -> exists t, G LProd (lex (str_Q q)) t /\ forall rho, tval rho t = Q2R q.
Proof.
  intros H. unfold str_Q. replace (denom q =? 1)%Z with false by lia. destruct (read_Z (numer q)) as (t & Gt & Vt).
  exists (TBin ODiv t (TNum (denom q))). split.
  - change ("/" ++ str_Z (denom q))%string with (String "/" (str_Z (denom q))). rewrite lex_app, lex_mark by reflexivity. apply g_div; [now apply g_um|].
    apply g_pu, g_ap, read_nat. unfold denom. lia.
  - intros rho. cbn [tval apply_op]. rewrite Vt. symmetry. apply Q2R_numden.
Qed.

(** ** Pieces of text *)
Lemma lex_parens s : lex (parens s) = Mk "(" :: lex s ++ [Mk ")"].
Proof. unfold parens. cbn [String.append]. rewrite lex_mark, lex_app by reflexivity. reflexivity. Qed.
Lemma g_parens s t l : G l (lex s) t -> G LAtom (lex (parens s)) t.
Proof. intros H. rewrite lex_parens. apply g_par. eapply g_up; eauto. Qed.
Lemma lexw_paren w l r : all_id l = true -> lexw w (l ++ String "(" r) = flush (w ++ l) ++ Mk "(" :: lex r.
Proof. intros H. rewrite lexw_app by reflexivity. rewrite lexw_id by auto. rewrite lex_mark by reflexivity. reflexivity. Qed.
Lemma g_fn l s t : is_fun l = true -> G LSum (lex s) t -> G LAtom (lex (l ++ parens s)) (TCall l t).
Proof.
  intros Hf H. assert (E : all_id l = true /\ l <> ""%string).
  { unfold is_fun in Hf. apply existsb_exists in Hf as (p & Hp & E). apply String.eqb_eq in E. subst l. repeat (destruct Hp as [<-|Hp]; [split; [reflexivity|discriminate]|]). destruct Hp. }
  destruct E as [E1 E2]. unfold parens. cbn [String.append]. unfold lex. rewrite lexw_paren by auto. cbn [String.append].
  rewrite lex_app, (lex_mark ")") by reflexivity. destruct l; [congruence|]. cbn [flush app]. apply g_call; auto.
Qed.
(** a product of texts *)
Lemma lex_concat s ss : lex (String.concat "*" (s :: ss)) = lex s ++ flat_map (fun u => Mk "*" :: lex u) ss.
Proof.
  revert s. induction ss as [|u ss IH]; intros s; [cbn; now rewrite app_nil_r|].
  change (String.concat "*" (s :: u :: ss)) with (s ++ String "*" (String.concat "*" (u :: ss)))%string.
  rewrite lex_app, lex_mark by reflexivity. rewrite IH. reflexivity.
Qed.
Lemma g_mults (fs : list (string * tree)) : forall ts t, G LProd ts t -> Forall (fun p => G LUnary (lex (fst p)) (snd p)) fs ->
  exists t', G LProd (ts ++ flat_map (fun u => Mk "*" :: lex u) (map fst fs)) t' /\
    forall rho, (tval rho t' = tval rho t * Rprod (map (fun p => tval rho (snd p)) fs))%R.
Proof.
  induction fs as [|[u v] fs IH]; intros ts t H F.
  - exists t. cbn [map flat_map]. rewrite app_nil_r. split; auto. intros rho. cbn. lra.
  - inversion F as [|? ? F1 F2]; subst. cbn [map flat_map fst snd] in *. destruct (IH _ _ (g_mul _ _ _ _ H F1) F2) as (t' & G' & V').
    exists t'. rewrite <- app_assoc in G'. split; [exact G'|]. intros rho. rewrite V'. unfold Rprod. cbn [tval apply_op fold_right map snd]. ring.
Qed.
Lemma g_concat (fs : list (string * tree)) : fs <> [] -> Forall (fun p => G LUnary (lex (fst p)) (snd p)) fs ->
  exists t', G LProd (lex (String.concat "*" (map fst fs))) t' /\ forall rho, (tval rho t' = Rprod (map (fun p => tval rho (snd p)) fs))%R.
Proof.
  intros N F. destruct fs as [|[u v] fs]; [congruence|]. inversion F as [|? ? F1 F2]; subst. cbn [map fst snd] in *. rewrite lex_concat.
  destruct (g_mults fs _ _ (g_um _ _ F1) F2) as (t' & G' & V'). exists t'. split; auto.
Qed.

Section Main.
Context (c : cfg).
Hypothesis H1 : forall x d, (0 < x)%Q -> fpow c 1 x = Some d -> d = 1%Z.
Definition unbracketed (i : expr) : Prop := forall n s, k_repr (K c n) i = Ok s -> bracketed s = false.
(** an exponent that does not print as 1/... *)
Definition plain (x : expr) : Prop := recip x = false.
Notation canon := (canon ident unbracketed plain (surd c)).
Notation cfac := (fun t => canon t /\ is_prod t = false).
Notation fine := (fine c ident unbracketed plain).
Definition same (l : level) (e : expr) (s : string) : Prop := exists t, G l (lex s) t /\ forall rho, wd rho e -> tval rho t = ev rho e.

(** ** The printer *)
Definition reads_at (n : nat) : Prop := forall e s, canon e -> k_repr (K c n) e = Ok s -> same (lvl e) e s.
Lemma flvl_prod t : (rank (flvl t) <= 3)%nat.
Proof.
  unfold flvl. destruct t as [q| | | | | | | | |b x| | |]; cbn [is_sum lvl rank]; try lia.
  - destruct (_ =? _)%Z; [destruct (qlt0 q)|]; cbn [rank]; lia.
  - destruct x as [q| | | | | | | | | | | |]; cbn [rank]; try lia. destruct (qlt0 q); [cbn; lia|]. destruct (Qeq_bool _ _); cbn; lia.
Qed.
Lemma same_le l l' e s : (rank l <= rank l')%nat -> same l e s -> same l' e s.
Proof. intros H (t & A & B). exists t. split; auto. eapply g_le; eauto. Qed.
Lemma same_par l e s : same l e s -> same LAtom e (parens s).
Proof. intros (t & A & B). exists t. split; auto. eapply g_parens; eauto. Qed.
Lemma prod_term_same n t s : reads_at n -> canon t -> prod_term_repr (K c n) t = Ok s -> same (flvl t) t s.
Proof.
  intros R C H. unfold prod_term_repr in H. apply bind_ok in H as (u & Hu & H). apply R in Hu; auto. injection H as <-. unfold flvl.
  destruct (is_sum t) eqn:E; cbn [orb]; [eapply same_par; eauto|]. destruct (islongsymbol t) eqn:L; auto.
  destruct t; try discriminate; eapply same_par; eauto.
Qed.
Definition wlvl (t : expr) : level := if is_sum t || is_prod t || isfractionorneg t then LAtom else lvl t.
Lemma pow_term_same n t s : reads_at n -> canon t -> pow_term_repr (K c n) t = Ok s -> same (wlvl t) t s.
Proof.
  intros R C H. unfold pow_term_repr in H. apply bind_ok in H as (u & Hu & H). apply R in Hu; auto. injection H as <-. unfold wlvl.
  destruct (is_sum t || is_prod t || isfractionorneg t) eqn:E; cbn [orb]; [eapply same_par; eauto|]. destruct (islongsymbol t) eqn:L; auto.
  destruct t; try discriminate; eapply same_par; eauto.
Qed.
Lemma wlvl_base b : canon b -> is_pow b = false -> wlvl b = LAtom.
Proof.
  intros C P. destruct C; try discriminate; try reflexivity. unfold wlvl. cbn [is_sum is_prod isfractionorneg orb lvl].
  destruct (denom q =? 1)%Z; cbn [negb orb]; auto. destruct (qlt0 q); auto.
Qed.
Lemma wlvl_exp x : canon x -> recip x = false -> (rank (wlvl x) <= 2)%nat.
Proof.
  intros C P. destruct (is_pow x) eqn:E; [|rewrite wlvl_base; auto; cbn; lia]. unfold wlvl. destruct x as [| | | | | | | | |b y| | |]; try discriminate. cbn [is_sum is_prod isfractionorneg orb lvl].
  destruct y as [q| | | | | | | | | | | |]; cbn [rank]; try lia. cbn [recip] in P. rewrite P. destruct (Qeq_bool _ _); cbn; lia.
Qed.
Lemma fn_same n l i s : reads_at n -> is_fun l = true -> canon i -> unbracketed i -> repr_fn (K c n) l i = Ok s ->
  exists t, G LAtom (lex s) (TCall l t) /\ forall rho, wd rho i -> tval rho t = ev rho i.
Proof.
  intros R F C B H. unfold repr_fn in H. apply bind_ok in H as (u & Hu & H). pose proof (B _ _ Hu) as Bu. apply R in Hu as (t & A & V); auto.
  unfold bracketed in Bu. exists t. split; auto. destruct (String.get 0 u); [|discriminate]. destruct (last_char u); [|discriminate]. rewrite Bu in H. injection H as <-.
  apply g_fn; auto. eapply g_up; eauto.
Qed.
Lemma mul_terms n ts : reads_at n -> Forall fine ts -> forall ss, mapM (prod_term_repr (K c n)) ts = Ok ss ->
  exists fs, ss = map fst fs /\ Forall (fun p => G LUnary (lex (fst p)) (snd p)) fs /\ List.length fs = List.length ts /\
    forall rho, Forall (wd rho) ts -> (Rprod (map (fun p => tval rho (snd p)) fs) = Rprod (map (ev rho) ts))%R.
Proof.
  intros R. induction 1 as [|t ts (C & P & L) _ IH]; intros ss H; cbn [mapM] in H.
  - injection H as <-. exists []. cbn. splits; auto.
  - apply bind_ok in H as (s & Hs & H). apply bind_ok in H as (ss' & H' & H). injection H as <-. destruct (IH _ H') as (fs & -> & F & Ln & V).
    apply prod_term_same in Hs; auto. apply (same_le _ LUnary) in Hs; auto. destruct Hs as (tr & Gt & Vt). exists ((s, tr) :: fs). splits; auto.
    + cbn [List.length]. now rewrite Ln.
    + intros rho W. inversion W; subst. unfold Rprod in *. cbn [map fold_right snd]. rewrite V, Vt; auto.
Qed.
(** numerator or denominator *)
Lemma part_same n fs e s l : reads_at n -> Forall fine fs -> (List.length (rats fs) <= 1)%nat -> ForallOrdPairs apart (nonrats fs) -> prod_skip fs = Ok e ->
  (if is_prod e then s0 <- k_repr (K c n) e;; Ok (if l : bool then parens s0 else s0) else prod_term_repr (K c n) e) = Ok s ->
  exists t, G (if l then LUnary else LProd) (lex s) t /\ forall rho, Forall (wd rho) fs -> tval rho t = Rprod (map (ev rho) fs).
Proof.
  intros R F L O E H.
  destruct (part_canon c ident unbracketed plain fs e F L O E) as (C & Lv & V).
  assert (X : same (if l then LUnary else LProd) e s /\ forall rho, Forall (wd rho) fs -> wd rho e /\ ev rho e = Rprod (map (ev rho) fs)).
  { split; auto. destruct (is_prod e) eqn:Pe.
    - apply bind_ok in H as (s0 & Hs & H). injection H as <-. apply R in Hs; auto. destruct e; try discriminate.
      destruct l; [eapply same_le; [|eapply same_par; eauto]; cbn; lia|exact Hs].
    - apply prod_term_same in H; auto. eapply same_le; [|exact H]. specialize (Lv eq_refl). destruct l; cbn [rank]; lia. }
  destruct X as ((t & Gt & Vt) & X). exists t. split; auto. intros rho W. destruct (X rho W) as [W1 W2]. rewrite Vt; auto.
Qed.
(** the terms after the first *)
Lemma rest_same n l : reads_at n -> Forall (fun t => canon t /\ is_sum t = false /\ neg_sum t = false) l -> forall s, sum_repr_rest (K c n) l = Ok s ->
  exists k, (forall s0, lex (s0 ++ s) = lex s0 ++ k) /\ forall ts t, G LSum ts t -> exists t', G LSum (ts ++ k) t' /\
    forall rho, Forall (wd rho) l -> (tval rho t' = tval rho t + Rsum (map (ev rho) l))%R.
Proof.
  intros R. induction 1 as [|t l (C & Sm & Ng) _ IH]; intros s H; cbn [sum_repr_rest] in H.
  - injection H as <-. exists []. split; [intros s0; now rewrite str_app_nil, app_nil_r|]. intros ts t Gt. exists t. rewrite app_nil_r. split; auto. intros. cbn. lra.
  - apply bind_ok in H as (s1 & H1' & H). apply bind_ok in H as (s' & H' & H). injection H as <-. destruct (IH _ H') as (k & Lk & Gk).
    assert (X : exists (m : ascii) (u : string) (tr : tree), s1 = String " " (String m (String " " u)) /\ idchar m = false /\ Ascii.eqb m " " = false /\ G LProd (lex u) tr /\
      (m = "+"%char /\ (forall rho, wd rho t -> tval rho tr = ev rho t) \/ m = "-"%char /\ (forall rho, wd rho t -> tval rho tr = - ev rho t)%R)).
    { destruct (is_sub t) eqn:Sb.
      - apply bind_ok in H1' as (e & He & H1'). apply bind_ok in H1' as (u & Hu & H1'). injection H1' as <-.
        assert (Y : canon e /\ is_sum e = false /\ forall rho, wd rho t -> wd rho e /\ (ev rho e = - ev rho t)%R).
        { destruct (is_prod t) eqn:Pt.
          - destruct (neg_ok c _ _ _ n t e C Pt Sb) as (Y1 & Y2 & Y3); [left; destruct t; try discriminate; exact He|]. splits; auto.
            destruct (is_sum e); auto. rewrite Y2 in Ng; auto; discriminate.
          - destruct C; try discriminate. cbn in He. injection He as <-. splits; [constructor|reflexivity|]. intros rho _. split; [exact I|]. cbn [ev].
            unfold rat. cbn [ev]. now rewrite Q2R_red, Q2R_opp. }
        destruct Y as (Y1 & Y2 & Y3). apply R in Hu as (tr & Gt & Vt); auto. exists "-"%char, u, tr. splits; auto.
        + eapply g_le; [|exact Gt]. pose proof (flvl_prod e) as Z. unfold flvl in Z. now rewrite Y2 in Z.
        + right. split; auto. intros rho W. destruct (Y3 rho W) as [W1 W2]. rewrite Vt; auto.
      - apply bind_ok in H1' as (u & Hu & H1'). injection H1' as <-. apply R in Hu as (tr & Gt & Vt); auto. exists "+"%char, u, tr. splits; auto.
        eapply g_le; [|exact Gt]. pose proof (flvl_prod t) as Z. unfold flvl in Z. now rewrite Sm in Z. }
    destruct X as (m & u & tr & -> & M1 & M2 & Gt & V). exists (Mk m :: lex u ++ k). split.
    + intros s0. cbn [String.append]. rewrite lex_app by reflexivity. rewrite (lex_mark " ") by reflexivity. change (mark " ") with (@nil tok). cbn [app].
      rewrite lex_mark by auto. unfold mark. rewrite M2. rewrite (lex_mark " ") by reflexivity. change (mark " ") with (@nil tok). cbn [app]. rewrite Lk. reflexivity.
    + intros ts t0 G0. assert (Y : exists t1, G LSum (ts ++ Mk m :: lex u) t1 /\ forall rho, wd rho t -> (tval rho t1 = tval rho t0 + ev rho t)%R).
      { destruct V as [[-> V]|[-> V]]; eexists; (split; [first [apply g_add; eauto|apply g_sub; eauto]|]); intros rho W; cbn [tval apply_op]; rewrite V; auto; lra. }
      destruct Y as (t1 & G1 & V1). destruct (Gk _ _ G1) as (t' & G' & V'). exists t'. rewrite <- app_assoc in G'. split; [exact G'|].
      intros rho W. inversion W; subst. rewrite V', V1 by auto. unfold Rsum. cbn [map fold_right]. lra.
Qed.
Lemma same_rat q : same (lvl (ERat q)) (ERat q) (str_Q q).
Proof.
  unfold same. cbn [lvl]. destruct (Z.eqb_spec (denom q) 1) as [E|E].
  - unfold str_Q. rewrite E. cbn [Z.eqb Pos.eqb]. assert (V : Q2R q = IZR (numer q)) by (rewrite Q2R_numden, E; field).
    destruct (qlt0 q) eqn:L.
    + exists (TNeg (TNum (- numer q))). split; [apply read_neg|intros rho _; cbn [tval ev]; rewrite V, opp_IZR; ring].
      apply qlt0_iff in L. apply Qlt_Rlt in L. rewrite V, Q2R_0 in L. apply lt_IZR. exact L.
    + exists (TNum (numer q)). split; [apply read_nat|intros rho _; cbn [tval ev]; now rewrite V].
      apply le_IZR. rewrite <- V, <- Q2R_0. apply Qle_Rle. now apply qlt0_f.
  - destruct (read_Q q E) as (t & A & B). exists t. split; [exact A|]. intros rho _. apply B.
Qed.
Lemma trig_fun f : is_fun (trig_label f) = true.
Proof. destruct f; reflexivity. Qed.
Lemma trig_value f v : apply_fun (trig_label f) v = tev f v.
Proof. destruct f; reflexivity. Qed.
Lemma over_same (e b : expr) s : (exists l, (rank l <= 2)%nat /\ same l b s) -> (forall rho, wd rho e -> wd rho b /\ (ev rho e = / ev rho b)%R) -> same LProd e ("1/" ++ s).
Proof.
  intros (l & Hl & t & Gt & Vt) E. exists (TBin ODiv (TNum 1) t). split.
  - change ("1/" ++ s)%string with ("1" ++ String "/" s)%string. rewrite lex_app, (lex_mark "/") by reflexivity.
    apply g_div; [|eapply g_le; [|exact Gt]; auto]. change "1"%string with (str_Z 1). apply g_um, g_pu, g_ap. apply read_nat. lia.
  - intros rho W. destruct (E rho W) as [W1 W2]. cbn [tval apply_op]. rewrite Vt by auto. rewrite W2. unfold Rdiv. lra.
Qed.
Lemma minus_same e m s : same LProd m s -> (forall rho, wd rho e -> wd rho m /\ (ev rho m = - ev rho e)%R) -> same LProd e ("-" ++ s).
Proof.
  intros (t & Gt & Vt) E. destruct (g_minus _ _ Gt) as (t' & G' & V'). exists t'. split; [cbn [String.append]; rewrite lex_mark by reflexivity; exact G'|].
  intros rho W. destruct (E rho W) as [W1 W2]. rewrite V', Vt, W2 by auto. lra.
Qed.
Lemma caret_same b x s1 s2 : same LAtom b s1 -> same LUnary x s2 -> same LPow (EPow b x) (s1 ++ "^" ++ s2).
Proof.
  intros (t & Gt & Vt) (u & Gu & Vu). exists (TBin OPow t u). split; [cbn [String.append]; rewrite lex_app, lex_mark by reflexivity; now apply g_pow|].
  intros rho (W1 & W2 & _). cbn [tval apply_op ev]. rewrite Vt, Vu; auto.
Qed.
Theorem repr_same n : reads_at n.
Proof.
  induction n as [|n IH]; intros e s C H; [discriminate|]. cbn [K build k_repr] in H. unfold repr_body in H.
  destruct C as [q| | |w Hw|us Hu Fu|us Hu Fu Ru Au|b q Cb Pb Rb Sb Ab|b x Cb Cx Pb Rx Cx' Px|f i Ci Ai|i Ci Ai|i Ci].
  - injection H as <-. apply same_rat.
  - injection H as <-. exists (TName "pi"). split; [apply (g_name "pi"); reflexivity|reflexivity].
  - injection H as <-. exists (TName "e"). split; [apply (g_name "e"); reflexivity|reflexivity].
  - injection H as <-. destruct Hw as (W1 & W2 & W3 & W4 & W5 & W6). exists (TName w). split; [rewrite lex_id by auto; now apply g_name|].
    intros rho _. cbn [tval ev]. apply String.eqb_neq in W5, W6. now rewrite W5, W6.
  - destruct us as [|t us]; [congruence|]. apply bind_ok in H as (s0 & H0 & H). apply bind_ok in H as (s' & H' & H). injection H as <-.
    inversion Fu as [|? ? (Ct & _) Fu']; subst. apply IH in H0 as (t0 & G0 & V0); auto. destruct (rest_same n us IH Fu' _ H') as (k & Lk & Gk).
    destruct (Gk _ _ (g_up _ _ _ G0)) as (t' & G' & V'). exists t'. split; [now rewrite Lk|]. intros rho W. apply wd_sum in W. inversion W; subst.
    rewrite V', V0 by auto. reflexivity.
  - destruct (is_sub (EProd us)) eqn:Sb.
    + apply bind_ok in H as (m & Hm & H). assert (C : canon (EProd us)) by (apply cn_prod; auto).
      destruct (neg_ok c _ _ _ n (EProd us) m C eq_refl Sb (or_intror Hm)) as (Cm & _ & Vm).
      destruct (is_prod m) eqn:Pm.
      * destruct (is_sub m); [discriminate|]. apply bind_ok in H as (s0 & H0 & H). injection H as <-. apply IH in H0; auto.
        apply (minus_same _ m); auto. destruct m; try discriminate. exact H0.
      * apply bind_ok in H as (s0 & H0 & H). injection H as <-. apply prod_term_same in H0; auto. apply (minus_same _ m); auto.
        eapply same_le; [|exact H0]. apply flvl_prod.
    + apply bind_ok in H as ([ne de] & Hn & H). unfold numden in Hn. apply bind_ok in Hn as ([nl dl] & Hg & Hn).
      apply bind_ok in Hn as (ne' & Hn1 & Hn). apply bind_ok in Hn as (de' & Hd1 & Hn). injection Hn as <- <-.
      apply (numden_nd c ident unbracketed plain H1) in Hg; auto.
      destruct (nd_fine c _ _ _ _ _ _ Hg Fu) as (I1 & I2 & I3 & I4). destruct (nd_shape c _ _ _ _ _ _ Hg Fu) as (J1 & J2 & _ & J3). destruct (J3 Au) as [J4 J5].
      pose proof (nd_value _ _ _ Hg) as V. destruct (isq de' 1) eqn:E1.
      * assert (Ed : dl = []).
        { destruct dl as [|t [|u dl]]; auto; exfalso; inversion I3; subst.
          - assert (de' = t) by (destruct t; cbn [prod_skip] in Hd1; congruence). congruence.
          - assert (de' = EProd (t :: u :: dl)) by (destruct t; cbn [prod_skip] in Hd1; congruence). subst. discriminate. }
        specialize (I4 Ed). apply bind_ok in H as (ss & Hs & H). injection H as <-. destruct (mul_terms n us IH I4 _ Hs) as (fs & -> & F & L & Vf).
        destruct (g_concat fs) as (t' & G' & V'); auto; [intros ->; destruct us; [congruence|discriminate]|]. exists t'. split; [exact G'|].
        intros rho W. apply wd_prod in W as [W _]. rewrite V', Vf; auto.
      * apply bind_ok in H as (ns & Hns & H). apply bind_ok in H as (ds & Hds & H). injection H as <-.
        destruct (part_same n nl ne' ns false IH I1 ltac:(lia) J4 Hn1) as (tn & Gn & Vn).
        { destruct (is_prod ne'); auto. rewrite Hns. reflexivity. }
        destruct (part_same n dl de' ds true IH I2 ltac:(lia) J5 Hd1) as (td & Gd & Vd).
        { destruct (is_prod de'); auto. }
        exists (TBin ODiv tn td). split; [cbn [String.append]; rewrite lex_app, lex_mark by reflexivity; now apply g_div|].
        intros rho W. apply wd_prod in W as [W _]. destruct (V rho W) as (V1 & V2 & V3 & V4). cbn [tval apply_op ev]. rewrite Vn, Vd, V4; auto.
  - assert (C : canon (EPow b (ERat q))) by (apply cn_pow; auto). destruct (isq (ERat q) (-1)) eqn:E1.
    + apply isq_rat in E1. apply bind_ok in H as (s0 & H0 & H). injection H as <-. apply pow_term_same in H0; auto. rewrite wlvl_base in H0 by auto.
      assert (L : qlt0 q = true) by (apply qlt0_iff; rewrite E1; reflexivity). cbn [lvl]. rewrite L.
      apply (over_same _ b); [exists LAtom; split; [cbn; lia|auto]|]. intros rho (Wb & _ & P). split; auto. cbn [ev].
      replace (Q2R q) with (-1)%R by (rewrite <- Q2R_m1; symmetry; now apply Qeq_eqR). apply rpow_m1. eapply pdom_neg; eauto.
    + destruct (qlt0 q) eqn:L.
      * apply bind_ok in H as (p & Hp & H). apply bind_ok in H as (s0 & H0 & H). injection H as <-.
        assert (N1 : ~ (q == -1)%Q) by (intros X; apply (isq_rat_f q (-1)) in E1; auto).
        apply (pow_keep c ident unbracketed plain H1 n b q) in Hp; auto; [|apply Qred_correct]. subst p.
        pose proof (pow_flip c _ _ _ b q (Qred (- q)) C L (Qred_correct _)) as (C' & _ & R'). apply IH in H0; auto. cbn [lvl] in *. rewrite L.
        apply (over_same _ (EPow b (ERat (Qred (- q))))); [exists (lvl (EPow b (ERat (Qred (- q))))); split; [exact R'|exact H0]|].
        intros rho W. destruct (pow_recip rho b q _ W L (Qred_correct _)) as (W1 & W2 & W3). auto.
      * cbn [lvl]. rewrite L. destruct (Qeq_bool q (1 # 2)) eqn:E2.
        -- apply Qeq_bool_iff in E2. apply fn_same in H as (t & Gt & Vt); auto; [|apply Ab; rewrite E2; reflexivity].
           exists (TCall "sqrt" t). split; auto. intros rho (Wb & _ & P). cbn [tval]. rewrite Vt by auto. change (apply_fun "sqrt" (ev rho b)) with (sqrt (ev rho b)).
           assert (Pb' : (0 < ev rho b)%R).
           { destruct P as [(q' & X & Hi & _)|P]; [|now apply rp_gt0]. exfalso. injection X as <-. rewrite (qisint_qeq _ _ E2) in Hi. discriminate. }
           cbn [ev]. rewrite rpow_pos by auto. rewrite (Qeq_eqR _ _ E2). replace (Q2R (1 # 2)) with (/ 2)%R by (unfold Q2R; simpl; lra). symmetry. now apply Rpower_sqrt.
        -- apply bind_ok in H as (s1 & Hs1 & H). apply bind_ok in H as (s2 & Hs2 & H). injection H as <-. apply pow_term_same in Hs1, Hs2; auto; [|constructor].
           rewrite wlvl_base in Hs1 by auto. apply caret_same; auto. eapply same_le; [|exact Hs2]. apply wlvl_exp; [constructor|reflexivity].
  - assert (X : (s1 <- pow_term_repr (K c n) b;; s2 <- pow_term_repr (K c n) x;; Ok (s1 ++ "^" ++ s2)%string) = Ok s).
    { replace (isq x (-1)) with false in H by (destruct x; try discriminate; auto). destruct x; try discriminate; exact H. }
    clear H. apply bind_ok in X as (s1 & Hs1 & H). apply bind_ok in H as (s2 & Hs2 & H). injection H as <-. apply pow_term_same in Hs1, Hs2; auto.
    rewrite wlvl_base in Hs1 by auto. replace (lvl (EPow b x)) with LPow by (destruct x; try discriminate; reflexivity).
    apply caret_same; auto. eapply same_le; [|exact Hs2]. now apply wlvl_exp.
  - apply fn_same in H as (t & Gt & Vt); auto using trig_fun. exists (TCall (trig_label f) t). split; auto. intros rho (W & _). cbn [tval ev]. rewrite Vt by auto. apply trig_value.
  - apply bind_ok in H as (l & Hl & H). assert (l = "ln"%string).
    { unfold log_label in Hl. apply bind_ok in Hl as (e & He & Hl). apply py_eq_ok in He. subst e. cbn [eeqb] in Hl. now injection Hl as <-. }
    subst l. apply fn_same in H as (t & Gt & Vt); auto. exists (TCall "ln" t). split; auto. intros rho (W & _). cbn [tval ev]. rewrite Vt by auto.
    change (apply_fun "ln" (ev rho i)) with (ln (ev rho i)). rewrite ln_exp. field.
  - apply bind_ok in H as (s0 & H0 & H). injection H as <-. apply IH in H0 as (t & Gt & Vt); auto. exists (TBars t). split.
    + cbn [String.append]. rewrite lex_mark, lex_app by reflexivity. apply g_bars. eapply g_up; eauto.
    + intros rho W. cbn [tval ev]. now rewrite Vt.
Qed.
End Main.
