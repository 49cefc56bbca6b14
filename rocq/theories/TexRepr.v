(** * TexRepr: the text latex() prints is read back (by the reader of ReadTex.v) as a formula with the
    same value (for C76). *)
From Coquelicot Require Import Coquelicot.
From Coq Require Import DecimalString DecimalZ DecimalFacts.
From Verif Require Import Base Expr Kernel Sem RealLemmas Sound SoundPow Atoms ExpandSound Frag Canon Read CanonR ReadTex.
From Verif Require Latex.
Import Latex(group, bracketfy, latex_Q, term_latex, base_latex, sum_latex, latex_body, latexE).
From Coq Require Import Permutation.
Local Ltac splits := repeat match goal with |- _ /\ _ => split end.

(** ** Levels *)
Definition trank (l : tlevel) : nat := match l with TArg | TBr => 0 | TAtom => 1 | TPow => 2 | TUnary => 3 | TProd => 4 | TSum => 5 end.
Lemma tg_le l l' ts t : (1 <= trank l)%nat -> (trank l <= trank l')%nat -> TG l ts t -> TG l' ts t.
Proof. destruct l, l'; cbn [trank]; intros; try lia; auto using t_ap, t_pu, t_um, t_ms. Qed.
Lemma tg_minus ts t : TG TProd ts t -> exists t', TG TProd (Ch "-" :: ts) t' /\ forall rho, (tval rho t' = - tval rho t)%R.
Proof.
  intros H. remember TProd as l eqn:El. induction H; try discriminate.
  - eexists. split; [apply t_um, t_neg; eauto|]. reflexivity.
  - destruct IHTG1 as (t' & G' & V'); auto. eexists. split; [rewrite app_comm_cons; apply t_mul; eauto|]. intros rho. cbn [tval apply_op]. rewrite V'. ring.
Qed.

(** ** Numbers *)
Lemma uint_digits u b : In b (list_ascii_of_string (NilEmpty.string_of_uint u)) -> digit b = true.
Proof. induction u; cbn [NilEmpty.string_of_uint list_ascii_of_string]; [intros []|..]; intros [<-|H]; auto. Qed.
Lemma tlex_chars s : (forall b, In b (list_ascii_of_string s) -> digit b = true) -> tlex s = map Ch (list_ascii_of_string s).
Proof.
  induction s as [|a s IH]; intros H; auto. assert (D : digit a = true) by (apply H; now left). rewrite tlex_ch.
  - cbn [list_ascii_of_string map]. f_equal. apply IH. intros b Hb. apply H. now right.
  - destruct (Ascii.eqb_spec a " "); auto. subst. discriminate.
  - destruct (Ascii.eqb_spec a backslash); auto. subst. discriminate.
Qed.
Lemma tread_nat z : (0 <= z)%Z -> TG TAtom (tlex (str_Z z)) (TNum z).
Proof.
  intros Hz. assert (E : exists u, Z.to_int z = Decimal.Pos u /\ u <> Decimal.Nil).
  { destruct z as [|p|p]; [exists (Decimal.D0 Decimal.Nil); now split| |lia]. exists (Pos.to_uint p). split; auto.
    apply DecimalPos.Unsigned.to_uint_nonnil. }
  destruct E as (u & E & Nu). unfold str_Z. rewrite E. cbn [NilZero.string_of_int].
  assert (P : NilZero.uint_of_string (NilZero.string_of_uint u) = Some u) by now apply NilZero.usu.
  assert (D : forall b, In b (list_ascii_of_string (NilZero.string_of_uint u)) -> digit b = true).
  { unfold NilZero.string_of_uint. destruct u; [intros b [<-|[]]; reflexivity|..]; intros b; apply uint_digits. }
  replace z with (Z.of_uint u); [|pose proof (DecimalZ.of_to z) as O; rewrite E in O; exact O].
  rewrite tlex_chars by auto. destruct (NilZero.string_of_uint u) as [|a w] eqn:Es; [discriminate|]. apply t_num; auto.
  - apply D. now left.
  - intros b Hb. apply D. now right.
Qed.
Lemma tread_neg z : (z < 0)%Z -> TG TUnary (tlex (str_Z z)) (TNeg (TNum (- z))).
Proof.
  intros Hz. destruct z as [|p|p]; try lia. pose proof (tread_nat (Z.pos p) ltac:(lia)) as H. unfold str_Z in *. cbn [Z.to_int NilZero.string_of_int] in *.
  rewrite tlex_ch by reflexivity. apply t_neg. now apply t_pu, t_ap.
Qed.
Lemma tread_Z z : exists t, TG TUnary (tlex (str_Z z)) t /\ forall rho, tval rho t = IZR z.
Proof.
  destruct (Z_lt_le_dec z 0) as [H|H].
  - eexists. split; [apply tread_neg; auto|]. intros rho. cbn [tval]. rewrite opp_IZR. lra.
  - eexists. split; [apply t_pu, t_ap, tread_nat; auto|]. reflexivity.
Qed.

(** ** Pieces of text *)
Lemma one_tok l k t : TG l [k] t -> k = Cw "pi" \/ TG TArg [k] t.
Proof.
  intros H. remember [k] as ts eqn:E. revert k E.
  assert (X : forall ts us (k j : ttok) l t, TG l ts t -> ts ++ j :: us <> [k]).
  { intros ts0 us k j l0 t0 G1 E. destruct (tfirst _ _ _ G1) as (k0 & r & -> & _). destruct r; discriminate. }
  induction H as [a u Hd Hu|a Hl|ts t G1 IH|ts t G1 IH|ts t G1 IH|a w u Hd Hw Hu|a Hl| |ts t G1 IH|ts t G1 IH|ts t G1 IH|ts t G1 IH
    |ts t us u G1 IH1 G2 IH2|ts t G1 IH|w ts t Hf G1 IH|w ts t Hf G1 IH|ts t G1 IH|ts t us u G1 IH1 G2 IH2|ts t G1 IH|ts t G1 IH|ts t G1 IH|ts t us u G1 IH1 G2 IH2
    |ts t G1 IH|ts t us u G1 IH1 G2 IH2|ts t us u G1 IH1 G2 IH2]; intros k E; auto;
    try (exfalso; eapply X; [exact G1|exact E]); try discriminate;
    try (exfalso; destruct (tfirst _ _ _ G1) as (k0 & r & -> & _); destruct r; discriminate);
    try (exfalso; injection E as _ E; destruct ts; discriminate).
  - injection E as <-. right. now apply t_digit.
  - injection E as <-. right. now apply t_letter.
  - destruct w; [|discriminate]. injection E as <-. right. now apply t_digit.
  - injection E as <-. right. now apply t_letter.
  - injection E as <-. now left.
Qed.
Lemma group_tex s t l : TG l (tlex s) t -> (1 <= trank l)%nat -> exists k, TG TArg k t /\ forall r, tlex (group s ++ r) = k ++ tlex r.
Proof.
  intros G1 Hl. unfold group. destruct (Nat.eqb (String.length s) 1) eqn:E.
  - destruct s as [|a [|b s]]; try discriminate.
    assert (A : Ascii.eqb a " " = false /\ Ascii.eqb a backslash = false).
    { split; apply Bool.not_true_is_false; intros X; apply Ascii.eqb_eq in X; subst a.
      - change (tlex (String " " "")) with (@nil ttok) in G1. destruct (tfirst _ _ _ G1) as (k & r & K & _). discriminate.
      - change (tlex (String backslash "")) with [Cw ""] in G1. apply one_tok in G1 as [K|K]; [discriminate|inversion K]. }
    destruct A as [A1 A2]. rewrite tlex_ch in G1 by auto. change (tlex "") with (@nil ttok) in G1. exists [Ch a]. split.
    + apply one_tok in G1 as [K|K]; [discriminate|auto].
    + intros r. cbn [String.append]. now rewrite tlex_ch.
  - exists (Ch "{" :: tlex s ++ [Ch "}"]). split; [apply t_group; eapply tg_le; [exact Hl| |exact G1]; destruct l; cbn; lia|].
    intros r. cbn [String.append]. rewrite tlex_ch by reflexivity. rewrite !str_app_assoc. cbn [String.append]. rewrite tlex_app, tlex_ch by reflexivity.
    cbn [app]. rewrite <- app_assoc. reflexivity.
Qed.
Lemma tlex_around p s q k1 k2 : (forall r, tlex (p ++ r) = k1 ++ tlex r) -> (forall s, tlex (s ++ q) = tlex s ++ k2) -> tlex (p ++ s ++ q) = k1 ++ tlex s ++ k2.
Proof. intros A B. now rewrite A, B. Qed.
Lemma paren_tex e s t : TG TSum (tlex s) t -> TG TBr (tlex (bracketfy "(" ")" e s)) t.
Proof.
  intros H. unfold bracketfy. destruct (Expr.has_pow e).
  - change ("\left" ++ "(" ++ " " ++ s ++ " \right" ++ ")")%string with ("\left( " ++ s ++ " \right)")%string.
    rewrite (tlex_around "\left( " s " \right)" [Cw "left"; Ch "("] [Cw "right"; Ch ")"]).
    + now apply t_left.
    + reflexivity.
    + intros u. rewrite (tlex_app u " ") by reflexivity. reflexivity.
  - rewrite (tlex_around "(" s ")" [Ch "("] [Ch ")"]).
    + now apply t_paren.
    + reflexivity.
    + intros u. rewrite (tlex_app u ")") by reflexivity. reflexivity.
Qed.
Lemma bars_tex e s t : TG TSum (tlex s) t -> TG TAtom (tlex (bracketfy "|" "|" e s)) (TBars t).
Proof.
  intros H. unfold bracketfy. destruct (Expr.has_pow e).
  - change ("\left" ++ "|" ++ " " ++ s ++ " \right" ++ "|")%string with ("\left| " ++ s ++ " \right|")%string.
    rewrite (tlex_around "\left| " s " \right|" [Cw "left"; Ch "|"] [Cw "right"; Ch "|"]).
    + now apply t_lbars.
    + reflexivity.
    + intros u. rewrite (tlex_app u " ") by reflexivity. reflexivity.
  - rewrite (tlex_around "|" s "|" [Ch "|"] [Ch "|"]).
    + now apply t_bars.
    + reflexivity.
    + intros u. rewrite (tlex_app u "|") by reflexivity. reflexivity.
Qed.
Lemma frac_tex a b t u l l' : TG l (tlex a) t -> TG l' (tlex b) u -> (1 <= trank l)%nat -> (1 <= trank l')%nat ->
  TG TAtom (tlex ("\frac " ++ group a ++ group b)) (TBin ODiv t u).
Proof.
  intros A B Hl Hl'. destruct (group_tex a t l A Hl) as (k1 & G1 & L1). destruct (group_tex b u l' B Hl') as (k2 & G2 & L2).
  change (tlex ("\frac " ++ group a ++ group b)) with (Cw "frac" :: tlex (group a ++ group b)). rewrite L1.
  pose proof (L2 ""%string) as E. rewrite str_app_nil in E. rewrite E. change (tlex "") with (@nil ttok). rewrite app_nil_r. now apply t_frac.
Qed.
(** a product of texts *)
Lemma tlex_dot s r : tlex (s ++ " \cdot " ++ r) = tlex s ++ Cw "cdot" :: tlex r.
Proof. change (" \cdot " ++ r)%string with (String " " ("\cdot " ++ r)). rewrite tlex_app by reflexivity. reflexivity. Qed.
Lemma tlex_concat s ss : tlex (String.concat " \cdot " (s :: ss)) = tlex s ++ flat_map (fun u => Cw "cdot" :: tlex u) ss.
Proof.
  revert s. induction ss as [|u ss IH]; intros s; [cbn; now rewrite app_nil_r|].
  change (String.concat " \cdot " (s :: u :: ss)) with (s ++ " \cdot " ++ String.concat " \cdot " (u :: ss))%string.
  rewrite tlex_dot, IH. reflexivity.
Qed.
Lemma tg_mults (fs : list (string * tree)) : forall ts t, TG TProd ts t -> Forall (fun p => TG TUnary (tlex (fst p)) (snd p)) fs ->
  exists t', TG TProd (ts ++ flat_map (fun u => Cw "cdot" :: tlex u) (map fst fs)) t' /\
    forall rho, (tval rho t' = tval rho t * Rprod (map (fun p => tval rho (snd p)) fs))%R.
Proof.
  induction fs as [|[u v] fs IH]; intros ts t H F.
  - exists t. cbn [map flat_map]. rewrite app_nil_r. split; auto. intros rho. cbn. lra.
  - inversion F as [|? ? F1 F2]; subst. cbn [map flat_map fst snd] in *. destruct (IH _ _ (t_mul _ _ _ _ H F1) F2) as (t' & G' & V').
    exists t'. rewrite <- app_assoc in G'. split; [exact G'|]. intros rho. rewrite V'. unfold Rprod. cbn [tval apply_op fold_right map snd]. ring.
Qed.
Lemma tg_concat (fs : list (string * tree)) : fs <> [] -> Forall (fun p => TG TUnary (tlex (fst p)) (snd p)) fs ->
  exists t', TG TProd (tlex (String.concat " \cdot " (map fst fs))) t' /\ forall rho, (tval rho t' = Rprod (map (fun p => tval rho (snd p)) fs))%R.
Proof.
  intros N F. destruct fs as [|[u v] fs]; [congruence|]. inversion F as [|? ? F1 F2]; subst. cbn [map fst snd] in *. rewrite tlex_concat.
  destruct (tg_mults fs _ _ (t_um _ _ F1) F2) as (t' & G' & V'). exists t'. split; auto.
Qed.

(** ** The printer *)
(** a symbol the reader takes as a name: one letter, not Euler's number *)
Definition tname (s : string) : Prop := exists a, s = String a "" /\ letter a = true /\ a <> "e"%char.
Definition xlvl (e : expr) : tlevel :=
  match e with
  | ESum _ => TSum
  | EProd _ => TProd
  | ERat q => if (denom q =? 1)%Z && qlt0 q then TUnary else TAtom
  | EPow _ x => TPow
  | _ => TAtom
  end.
Section Main.
Context (c : cfg) (m : nat).
Hypothesis H1 : forall x d, (0 < x)%Q -> fpow c 1 x = Some d -> d = 1%Z.
Definition anything (e : expr) : Prop := True.
Notation canon := (canon tname anything anything (surd c)).
Notation cfac := (fun t => canon t /\ is_prod t = false).
Notation k := (K c m).
Definition tsame (l : tlevel) (e : expr) (s : string) : Prop := (1 <= trank l)%nat /\ exists t, TG l (tlex s) t /\ forall rho, wd rho e -> tval rho t = ev rho e.
Definition treads (lx : expr -> res string) : Prop := forall e s, canon e -> lx e = Ok s -> tsame (xlvl e) e s.
Lemma tsame_le l l' e s : (trank l <= trank l')%nat -> tsame l e s -> tsame l' e s.
Proof. intros H (L & t & A & B). split; [lia|]. exists t. split; auto. eapply tg_le; eauto. Qed.
Lemma tsum_of l e s : tsame l e s -> tsame TSum e s.
Proof. apply tsame_le. destruct l; cbn; lia. Qed.
Lemma tsame_par l b e s : tsame l e s -> tsame TAtom e (bracketfy "(" ")" b s).
Proof. intros H. apply tsum_of in H as (_ & t & A & B). split; [cbn; lia|]. exists t. split; auto. apply t_bra. now apply paren_tex. Qed.
Section Rec.
Context (lx : expr -> res string) (R : treads lx).
Definition fxlvl (t : expr) : tlevel := if is_sum t then TAtom else xlvl t.
Lemma fxlvl_prod t : (trank (fxlvl t) <= 4)%nat.
Proof. unfold fxlvl. destruct t; cbn [is_sum xlvl]; try (cbn; lia). destruct (_ && _); cbn; lia. Qed.
Lemma fxlvl_unary t : is_prod t = false -> (trank (fxlvl t) <= 3)%nat.
Proof. unfold fxlvl. destruct t; cbn [is_sum is_prod xlvl]; try discriminate; try (cbn; lia). destruct (_ && _); cbn; lia. Qed.
Lemma term_same t s : canon t -> term_latex lx t = Ok s -> tsame (fxlvl t) t s.
Proof.
  intros C H. unfold term_latex in H. apply bind_ok in H as (u & Hu & H). apply R in Hu; auto. injection H as <-. unfold fxlvl.
  destruct (is_sum t); auto. eapply tsame_par; eauto.
Qed.
Lemma base_same b s : canon b -> is_pow b = false -> base_latex lx b = Ok s -> tsame TAtom b s.
Proof.
  intros C P H. unfold base_latex in H. apply bind_ok in H as (u & Hu & H). apply R in Hu; auto. injection H as <-.
  destruct (is_sum b || is_prod b || isfractionorneg b) eqn:E; cbn [orb]; [eapply tsame_par; eauto|]. destruct (islongsymbol b); [eapply tsame_par; eauto|].
  rewrite !orb_false_iff in E. destruct E as [[E1 E2] E3]. destruct b; try discriminate; auto. cbn [xlvl] in Hu. cbn [isfractionorneg] in E3. rewrite orb_false_iff in E3. destruct E3 as [E3 E4].
  rewrite E4, andb_false_r in Hu. exact Hu.
Qed.
Lemma fun_same w p i s : tfun w = true -> canon i -> lx i = Ok s -> (forall r, tlex (p ++ r) = Cw w :: tlex r) ->
  exists t, TG TAtom (tlex (p ++ bracketfy "(" ")" i s)) (TCall w t) /\ forall rho, wd rho i -> tval rho t = ev rho i.
Proof.
  intros F C H P. apply R in H; auto. apply tsum_of in H as (_ & t & A & V). exists t. split; auto. rewrite P. apply t_fun; auto. now apply paren_tex.
Qed.
Lemma inv_same w p i s : tfun w = true -> canon i -> lx i = Ok s -> (forall r, tlex (p ++ r) = Cw w :: Ch "^" :: Ch "{" :: Ch "-" :: Ch "1" :: Ch "}" :: tlex r) ->
  exists t, TG TAtom (tlex (p ++ bracketfy "(" ")" i s)) (TCall ("a" ++ w) t) /\ forall rho, wd rho i -> tval rho t = ev rho i.
Proof.
  intros F C H P. apply R in H; auto. apply tsum_of in H as (_ & t & A & V). exists t. split; auto. rewrite P. apply t_inv; auto. now apply paren_tex.
Qed.
Lemma mul_terms ts : Forall cfac ts -> forall ss, mapM (term_latex lx) ts = Ok ss ->
  exists fs, ss = map fst fs /\ Forall (fun p => TG TUnary (tlex (fst p)) (snd p)) fs /\ List.length fs = List.length ts /\
    forall rho, Forall (wd rho) ts -> (Rprod (map (fun p => tval rho (snd p)) fs) = Rprod (map (ev rho) ts))%R.
Proof.
  induction 1 as [|t ts (C & P) _ IH]; intros ss H; cbn [mapM] in H.
  - injection H as <-. exists []. cbn. splits; auto.
  - apply bind_ok in H as (s & Hs & H). apply bind_ok in H as (ss' & H' & H). injection H as <-. destruct (IH _ H') as (fs & -> & F & Ln & V).
    apply term_same in Hs; auto. apply (tsame_le _ TUnary) in Hs; [|now apply fxlvl_unary]. destruct Hs as (_ & tr & Gt & Vt). exists ((s, tr) :: fs). splits; auto.
    + cbn [List.length]. now rewrite Ln.
    + intros rho W. inversion W; subst. unfold Rprod in *. cbn [map fold_right snd]. rewrite V, Vt; auto.
Qed.
(** the terms after the first *)
Lemma tlex_op (a : ascii) s0 u : letter a = false -> Ascii.eqb a " " = false -> Ascii.eqb a backslash = false ->
  tlex (s0 ++ String " " (String a (String " " u))) = tlex s0 ++ Ch a :: tlex u.
Proof. intros A1 A2 A3. rewrite tlex_app by reflexivity. rewrite tlex_sp, tlex_ch by auto. reflexivity. Qed.
Lemma rest_tsame l : Forall (fun t => canon t /\ is_sum t = false /\ neg_sum t = false) l -> forall s, sum_latex k lx l = Ok s ->
  exists ks, (forall s0, tlex (s0 ++ s) = tlex s0 ++ ks) /\ forall ts t, TG TSum ts t -> exists t', TG TSum (ts ++ ks) t' /\
    forall rho, Forall (wd rho) l -> (tval rho t' = tval rho t + Rsum (map (ev rho) l))%R.
Proof.
  induction 1 as [|t l (C & Sm & Ng) _ IH]; intros s H; cbn [sum_latex] in H.
  - injection H as <-. exists []. split; [intros s0; now rewrite str_app_nil, app_nil_r|]. intros ts t Gt. exists t. rewrite app_nil_r. split; auto. intros. cbn. lra.
  - apply bind_ok in H as (s1 & H1' & H). apply bind_ok in H as (s' & H' & H). injection H as <-. destruct (IH _ H') as (ks & Lk & Gk).
    assert (X : exists (a : ascii) (u : string) (tr : tree), s1 = String " " (String a (String " " u)) /\ letter a = false /\ Ascii.eqb a " " = false /\ Ascii.eqb a backslash = false /\ TG TProd (tlex u) tr /\
      (a = "+"%char /\ (forall rho, wd rho t -> tval rho tr = ev rho t) \/ a = "-"%char /\ (forall rho, wd rho t -> tval rho tr = - ev rho t)%R)).
    { destruct (is_sub t) eqn:Sb.
      - apply bind_ok in H1' as (e & He & H1'). apply bind_ok in H1' as (u & Hu & H1'). injection H1' as <-.
        assert (Y : canon e /\ is_sum e = false /\ forall rho, wd rho t -> wd rho e /\ (ev rho e = - ev rho t)%R).
        { destruct (is_prod t) eqn:Pt.
          - destruct (neg_ok c _ _ _ m t e C Pt Sb) as (Y1 & Y2 & Y3); [left; destruct t; try discriminate; exact He|]. splits; auto.
            destruct (is_sum e); auto. rewrite Y2 in Ng; auto; discriminate.
          - destruct C; try discriminate. cbn in He. injection He as <-. splits; [constructor|reflexivity|]. intros rho _. split; [exact I|]. cbn [ev].
            unfold rat. cbn [ev]. now rewrite Q2R_red, Q2R_opp. }
        destruct Y as (Y1 & Y2 & Y3). apply R in Hu; auto. apply (tsame_le _ TProd) in Hu; [|pose proof (fxlvl_prod e) as Z; unfold fxlvl in Z; now rewrite Y2 in Z].
        destruct Hu as (_ & tr & Gt & Vt). exists "-"%char, u, tr. splits; auto.
        right. split; auto. intros rho W. destruct (Y3 rho W) as [W1 W2]. rewrite Vt; auto.
      - apply bind_ok in H1' as (u & Hu & H1'). injection H1' as <-. apply R in Hu; auto.
        apply (tsame_le _ TProd) in Hu; [|pose proof (fxlvl_prod t) as Z; unfold fxlvl in Z; now rewrite Sm in Z].
        destruct Hu as (_ & tr & Gt & Vt). exists "+"%char, u, tr. splits; auto. }
    destruct X as (a & u & tr & -> & M1 & M2 & M3 & Gt & V). exists (Ch a :: tlex u ++ ks). split.
    + intros s0. cbn [String.append]. rewrite tlex_op by auto. now rewrite Lk.
    + intros ts t0 G0. assert (Y : exists t1, TG TSum (ts ++ Ch a :: tlex u) t1 /\ forall rho, wd rho t -> (tval rho t1 = tval rho t0 + ev rho t)%R).
      { destruct V as [[-> V]|[-> V]]; eexists; (split; [first [apply t_add; eauto|apply t_sub; eauto]|]); intros rho W; cbn [tval apply_op]; rewrite V; auto; lra. }
      destruct Y as (t1 & G1 & V1). destruct (Gk _ _ G1) as (t' & G' & V'). exists t'. rewrite <- app_assoc in G'. split; [exact G'|].
      intros rho W. inversion W; subst. rewrite V', V1 by auto. unfold Rsum. cbn [map fold_right]. lra.
Qed.
Lemma tsame_rat q : tsame (xlvl (ERat q)) (ERat q) (latex_Q q).
Proof.
  cbn [xlvl]. unfold latex_Q. destruct (Z.eqb_spec (denom q) 1) as [E|E]; cbn [andb].
  - assert (V : Q2R q = IZR (numer q)) by (rewrite Q2R_numden, E; field). destruct (qlt0 q) eqn:L; (split; [cbn; lia|]).
    + exists (TNeg (TNum (- numer q))). split; [apply tread_neg|intros rho _; cbn [tval ev]; rewrite V, opp_IZR; ring].
      apply qlt0_iff in L. apply Qlt_Rlt in L. rewrite V, Q2R_0 in L. apply lt_IZR. exact L.
    + exists (TNum (numer q)). split; [apply tread_nat|intros rho _; cbn [tval ev]; now rewrite V].
      apply le_IZR. rewrite <- V, <- Q2R_0. apply Qle_Rle. now apply qlt0_f.
  - split; [cbn; lia|]. destruct (tread_Z (numer q)) as (t & Gt & Vt). exists (TBin ODiv t (TNum (denom q))). split.
    + eapply frac_tex; [exact Gt|apply tread_nat; unfold denom; lia|cbn; lia..].
    + intros rho _. cbn [tval apply_op ev]. rewrite Vt. symmetry. apply Q2R_numden.
Qed.
Lemma minus_tsame e a s : tsame TProd a s -> (forall rho, wd rho e -> wd rho a /\ (ev rho a = - ev rho e)%R) -> tsame TProd e ("-" ++ s).
Proof.
  intros (_ & t & Gt & Vt) E. destruct (tg_minus _ _ Gt) as (t' & G' & V'). split; [cbn; lia|]. exists t'. split; [cbn [String.append]; rewrite tlex_ch by reflexivity; exact G'|].
  intros rho W. destruct (E rho W) as [W1 W2]. rewrite V', Vt, W2 by auto. lra.
Qed.
Lemma tval_trig f v : apply_fun (trig_label f) v = tev f v.
Proof. destruct f; reflexivity. Qed.
Lemma half_value rho b q : wd rho (EPow b (ERat q)) -> (Qabs q == 1 # 2)%Q -> (0 < ev rho b)%R.
Proof.
  intros (Wb & _ & P) E. destruct P as [(q' & X & Hi & _)|P]; [|now apply rp_gt0]. exfalso. injection X as <-.
  assert (Y : qisint (Qabs q) = true). { unfold qisint, denom, Qabs in *. destruct q as [n d]. cbn [Qnum Qden] in *. clear -Hi. destruct n; cbn in *; auto.
    change (Z.neg p # d)%Q with (- (Z.pos p # d))%Q in Hi. rewrite Qred_opp in Hi. exact Hi. }
  rewrite (qisint_qeq _ _ E) in Y. discriminate.
Qed.
Lemma sqrt_value v : (0 < v)%R -> rpow v (/ 2) = sqrt v.
Proof. intros H. rewrite rpow_pos by auto. now apply Rpower_sqrt. Qed.
Theorem body_same e s : canon e -> latex_body c k lx e = Ok s -> tsame (xlvl e) e s.
Proof.
  intros C H. destruct C as [q| | |w Hw|us Hu Fu|us Hu Fu Ru Au|b q Cb Pb Rb Sb Ab|b x Cb Cx Pb Rx Cx' Px|f i Ci Ai|i Ci Ai|i Ci]; cbn [latex_body] in H.
  - injection H as <-. apply tsame_rat.
  - injection H as <-. split; [cbn; lia|]. exists (TName "pi"). split; [apply t_pi|reflexivity].
  - injection H as <-. split; [cbn; lia|]. exists (TName "e"). split; [now apply (t_name "e")|reflexivity].
  - injection H as <-. destruct Hw as (a & -> & La & Ne). split; [cbn; lia|]. exists (TName (String a "")). split.
    + rewrite tlex_ch; [now apply t_name| |]; apply Bool.not_true_is_false; intros E; apply Ascii.eqb_eq in E; subst; discriminate.
    + intros rho _. cbn [tval ev]. assert (E1 : String.eqb (String a "") "pi" = false) by (apply String.eqb_neq; congruence).
      assert (E2 : String.eqb (String a "") "e" = false) by (apply String.eqb_neq; congruence). now rewrite E1, E2.
  - destruct us as [|t us]; [congruence|]. apply bind_ok in H as (s0 & H0 & H). apply bind_ok in H as (s' & H' & H). injection H as <-.
    inversion Fu as [|? ? (Ct & _) Fu']; subst. apply R in H0; auto. apply tsum_of in H0 as (_ & t0 & G0 & V0). destruct (rest_tsame us Fu' _ H') as (ks & Lk & Gk).
    destruct (Gk _ _ G0) as (t' & G' & V'). split; [cbn; lia|]. exists t'. split; [now rewrite Lk|]. intros rho W. apply wd_sum in W. inversion W; subst.
    rewrite V', V0 by auto. reflexivity.
  - destruct (is_sub (EProd us)) eqn:Sb.
    + apply bind_ok in H as (a & Hm & H). assert (C : canon (EProd us)) by (apply cn_prod; auto).
      destruct (neg_ok c _ _ _ m (EProd us) a C eq_refl Sb (or_intror Hm)) as (Cm & _ & Vm). apply bind_ok in H as (s0 & H0 & H). injection H as <-.
      apply (minus_tsame _ a); auto. destruct (is_prod a) eqn:Pa.
      * apply R in H0; auto. destruct a; try discriminate. exact H0.
      * apply term_same in H0; auto. eapply tsame_le; [|exact H0]. apply fxlvl_prod.
    + apply bind_ok in H as ([ne de] & Hn & H). unfold numden in Hn. apply bind_ok in Hn as ([nl dl] & Hg & Hn).
      apply bind_ok in Hn as (ne' & Hn1 & Hn). apply bind_ok in Hn as (de' & Hd1 & Hn). injection Hn as <- <-.
      apply (numden_nd c tname anything anything H1) in Hg; auto.
      destruct (nd_fine c _ _ _ _ _ _ Hg Fu) as (I1 & I2 & I3 & I4). destruct (nd_shape c _ _ _ _ _ _ Hg Fu) as (J1 & J2 & _ & J3). destruct (J3 Au) as [J4 J5].
      pose proof (nd_value _ _ _ Hg) as V. destruct (isq de' 1) eqn:E1.
      * apply bind_ok in H as (ss & Hs & H). injection H as <-. destruct (mul_terms us Fu _ Hs) as (fs & -> & F & L & Vf).
        destruct (tg_concat fs) as (t' & G' & V'); auto; [intros ->; destruct us; [congruence|discriminate]|]. split; [cbn; lia|]. exists t'. split; [exact G'|].
        intros rho W. apply wd_prod in W as [W _]. rewrite V', Vf; auto.
      * apply bind_ok in H as (ns & Hns & H). apply bind_ok in H as (ds & Hds & H). injection H as <-.
        destruct (part_canon c _ _ _ nl ne' I1 ltac:(lia) J4 Hn1) as (Cn & _ & Vn). destruct (part_canon c _ _ _ dl de' I2 ltac:(lia) J5 Hd1) as (Cd & _ & Vd).
        apply R in Hns, Hds; auto. apply tsum_of in Hns as (_ & tn & Gn & Wn). apply tsum_of in Hds as (_ & td & Gd & Wd).
        apply (tsame_le TAtom); [cbn; lia|]. split; [cbn; lia|]. exists (TBin ODiv tn td). split; [eapply frac_tex; [exact Gn|exact Gd|cbn; lia..]|].
        intros rho W. apply wd_prod in W as [W _]. destruct (V rho W) as (V1 & V2 & V3 & V4). destruct (Vn rho V1) as [X1 X2]. destruct (Vd rho V2) as [X3 X4].
        cbn [tval apply_op ev]. rewrite Wn, Wd, X2, X4, V4; auto.
  - destruct (isq (ERat q) (1 # 2)) eqn:E1; [|destruct (isq (ERat q) (-1 # 2)) eqn:E2].
    + apply bind_ok in H as (s0 & H0 & H). injection H as <-. apply R in H0; auto. apply tsum_of in H0 as (_ & t & Gt & Vt). apply isq_rat in E1.
      apply (tsame_le TAtom); [cbn; lia|]. split; [cbn; lia|]. exists (TCall "sqrt" t). split.
      * match goal with |- TG _ (tlex ?u) _ => change u with ("\sqrt{" ++ s0 ++ "}")%string end. rewrite (tlex_around "\sqrt{" s0 "}" [Cw "sqrt"; Ch "{"] [Ch "}"]); [apply t_sqrt; now apply t_group|reflexivity|]. intros u. now rewrite (tlex_app u "}").
      * intros rho W. pose proof (half_value rho b q W ltac:(rewrite E1; reflexivity)) as P. destruct W as (Wb & _ & _). cbn [tval ev]. rewrite Vt by auto.
        rewrite (Qeq_eqR _ _ E1). replace (Q2R (1 # 2)) with (/ 2)%R by (unfold Q2R; simpl; lra). now rewrite sqrt_value.
    + apply bind_ok in H as (s0 & H0 & H). injection H as <-. apply R in H0; auto. apply tsum_of in H0 as (_ & t & Gt & Vt). apply isq_rat in E2.
      split; [cbn; lia|]. exists (TBin OPow (TCall "sqrt" t) (TNeg (TNum 1))). split.
      * match goal with |- TG _ (tlex ?u) _ => change u with ("{\sqrt{" ++ s0 ++ "}}^{-1}")%string end. rewrite (tlex_around "{\sqrt{" s0 "}}^{-1}" [Ch "{"; Cw "sqrt"; Ch "{"] [Ch "}"; Ch "}"; Ch "^"; Ch "{"; Ch "-"; Ch "1"; Ch "}"]); [|reflexivity|intros u; now rewrite (tlex_app u "}")].
        assert (X : TG TAtom (Ch "{" :: (Cw "sqrt" :: Ch "{" :: tlex s0 ++ [Ch "}"]) ++ [Ch "}"]) (TCall "sqrt" t)).
        { apply t_grp. eapply (tg_le TAtom); [cbn; lia..|]. apply t_sqrt. now apply t_group. }
        assert (Y : TG TArg [Ch "{"; Ch "-"; Ch "1"; Ch "}"] (TNeg (TNum 1))).
        { apply (t_group [Ch "-"; Ch "1"]). eapply (tg_le TUnary); [cbn; lia..|]. apply t_neg, t_pu, t_ap. exact (tread_nat 1 ltac:(lia)). }
        pose proof (t_pow _ _ _ _ X Y) as Z. cbn [app] in Z. rewrite <- !app_assoc in Z. exact Z.
      * intros rho W. pose proof (half_value rho b q W ltac:(rewrite E2; reflexivity)) as P. destruct W as (Wb & _ & _). cbn [tval ev apply_op]. rewrite Vt by auto.
        change (apply_fun "sqrt" (ev rho b)) with (sqrt (ev rho b)). change (- (1))%R with (-1)%R. rewrite (Qeq_eqR _ _ E2). replace (Q2R (-1 # 2)) with (- / 2)%R by (unfold Q2R; simpl; lra).
        pose proof (sqrt_lt_R0 _ P) as Q. rewrite rpow_m1 by lra. rewrite rpow_pos by auto. rewrite Rpower_Ropp. f_equal. symmetry. now apply Rpower_sqrt.
    + apply bind_ok in H as (s1 & Hs1 & H). apply bind_ok in H as (s2 & Hs2 & H). injection H as <-. apply base_same in Hs1 as (_ & t & Gt & Vt); auto.
      apply R in Hs2; [|constructor]. apply tsum_of in Hs2 as (_ & u & Gu & Vu). destruct (group_tex s2 u TSum Gu ltac:(cbn; lia)) as (g & Gg & Lg).
      split; [cbn; lia|]. exists (TBin OPow t u). split.
      * cbn [String.append]. rewrite tlex_app, tlex_ch by reflexivity. pose proof (Lg ""%string) as E. rewrite str_app_nil in E. rewrite E. change (tlex "") with (@nil ttok). rewrite app_nil_r.
        now apply t_pow.
      * intros rho (W1 & W2 & _). cbn [tval apply_op]. rewrite Vt, Vu; auto.
  - assert (E : isq x (1 # 2) = false /\ isq x (-1 # 2) = false) by (destruct x; try discriminate; auto). destruct E as [E1 E2]. rewrite E1, E2 in H.
    apply bind_ok in H as (s1 & Hs1 & H). apply bind_ok in H as (s2 & Hs2 & H). injection H as <-. apply base_same in Hs1 as (_ & t & Gt & Vt); auto.
    apply R in Hs2; auto. apply tsum_of in Hs2 as (_ & u & Gu & Vu). destruct (group_tex s2 u TSum Gu ltac:(cbn; lia)) as (g & Gg & Lg).
    split; [cbn; lia|]. exists (TBin OPow t u). split.
    + cbn [String.append]. rewrite tlex_app, tlex_ch by reflexivity. pose proof (Lg ""%string) as E. rewrite str_app_nil in E. rewrite E. change (tlex "") with (@nil ttok). rewrite app_nil_r.
      now apply t_pow.
    + intros rho (W1 & W2 & _). cbn [tval apply_op]. rewrite Vt, Vu; auto.
  - apply bind_ok in H as (s0 & H0 & H). injection H as <-. split; [cbn; lia|].
    assert (X : exists t, TG TAtom (tlex ("\" ++ trig_label (trig_func f) ++ (if is_inverse f then "^{-1} " else " ") ++ bracketfy "(" ")" i s0)) (TCall (trig_label f) t) /\ forall rho, wd rho i -> tval rho t = ev rho i).
    { destruct f; cbn [trig_func trig_label is_inverse];
        first [apply (fun_same _ ("\sin ") i s0)|apply (fun_same _ ("\cos ") i s0)|apply (fun_same _ ("\tan ") i s0)|apply (fun_same _ ("\csc ") i s0)|apply (fun_same _ ("\sec ") i s0)|apply (fun_same _ ("\cot ") i s0)
              |apply (inv_same "sin" ("\sin^{-1} ") i s0)|apply (inv_same "cos" ("\cos^{-1} ") i s0)|apply (inv_same "tan" ("\tan^{-1} ") i s0)]; auto; intros r; reflexivity. }
    destruct X as (t & Gt & Vt). exists (TCall (trig_label f) t). split; auto. intros rho (W & _). cbn [tval ev]. rewrite Vt by auto. apply tval_trig.
  - apply bind_ok in H as (e & He & H). apply py_eq_ok in He. cbn [eeqb] in He. subst e. apply bind_ok in H as (s0 & H0 & H). injection H as <-. split; [cbn; lia|].
    destruct (fun_same "ln" "\ln " i s0 eq_refl Ci H0 ltac:(reflexivity)) as (t & Gt & Vt). exists (TCall "ln" t). split; auto. intros rho (W & _). cbn [tval ev]. rewrite Vt by auto.
    change (apply_fun "ln" (ev rho i)) with (ln (ev rho i)). rewrite ln_exp. field.
  - apply bind_ok in H as (s0 & H0 & H). injection H as <-. apply R in H0; auto. apply tsum_of in H0 as (_ & t & Gt & Vt). split; [cbn; lia|]. exists (TBars t). split.
    + now apply bars_tex.
    + intros rho W. cbn [tval ev]. now rewrite Vt.
Qed.
End Rec.
Theorem latex_same n : treads (latexE c k n).
Proof. induction n as [|n IH]; intros e s C H; [discriminate|]. cbn [latexE] in H. now apply (body_same _ IH). Qed.
End Main.
