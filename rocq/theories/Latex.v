(** * Latex: the latex() methods (src/simpy/expr.py) and src/simpy/latex.py, and the proof that what
    they print is balanced (C49). *)
From Coq Require Import DecimalString.
From Verif Require Export Atoms.
Open Scope Z_scope.
Open Scope string_scope.

(** ** Specification: reading TeX text.
    A control word is a backslash followed by the longest run of letters, a control symbol a
    backslash followed by one other character (as in TeX).  Braces and the control words \left and
    \right must nest like brackets. *)
Inductive opener := Brace | Left.
Inductive mode := Txt | Cmd (w : string).
Definition is_letter (a : ascii) : bool :=
  let n := nat_of_ascii a in
  (Nat.leb 65 n && Nat.leb n 90) || (Nat.leb 97 n && Nat.leb n 122).
Definition bslash : ascii := "092"%char.

(** a complete control word [w] is met *)
Definition word (w : string) (st : list opener) : option (list opener) :=
  if String.eqb w "left" then Some (Left :: st)
  else if String.eqb w "right" then match st with Left :: r => Some r | _ => None end
  else Some st.
(** a character outside control words is met *)
Definition chr (a : ascii) (st : list opener) : option (mode * list opener) :=
  if Ascii.eqb a bslash then Some (Cmd "", st)
  else if Ascii.eqb a "{" then Some (Txt, Brace :: st)
  else if Ascii.eqb a "}" then match st with Brace :: r => Some (Txt, r) | _ => None end
  else Some (Txt, st).
Definition step (m : mode) (st : list opener) (a : ascii) : option (mode * list opener) :=
  match m with
  | Txt => chr a st
  | Cmd w =>
      if is_letter a then Some (Cmd (w ++ String a ""), st)
      else if String.eqb w "" then Some (Txt, st)
      else match word w st with Some st' => chr a st' | None => None end
  end.
Fixpoint run (m : mode) (st : list opener) (s : string) : option (mode * list opener) :=
  match s with
  | "" => Some (m, st)
  | String a r => match step m st a with Some (m', st') => run m' st' r | None => None end
  end.
(** the end of the text completes a control word; a lone backslash at the end is an error *)
Definition fin (m : mode) (st : list opener) : option (list opener) :=
  match m with Txt => Some st | Cmd w => if String.eqb w "" then None else word w st end.
Definition balanced (s : string) : Prop :=
  exists m st, run Txt [] s = Some (m, st) /\ fin m st = Some [].

(** ** Model *)
Section Latex.
Context (c : cfg) (k : kern).

(** group, latex.py:26-30, on a string *)
Definition group (s : string) : string :=
  if Nat.eqb (String.length s) 1 then s else "{" ++ s ++ "}".
(** bracketfy, latex.py:8-23: [s] is expr.latex() *)
Definition bracketfy (b1 b2 : string) (e : expr) (s : string) : string :=
  if has_pow e then "\left" ++ b1 ++ " " ++ s ++ " \right" ++ b2 else b1 ++ s ++ b2.

(** Rat.latex, expr.py:600-605 *)
Definition latex_Q (q : Q) : string :=
  if (denom q =? 1)%Z then str_Z (numer q)
  else "\frac " ++ group (str_Z (numer q)) ++ group (str_Z (denom q)).

Section Rec.
Context (lx : expr -> res string).
(** _term_latex inside Prod.latex, expr.py:1217-1220 *)
Definition term_latex (t : expr) : res string :=
  s <- lx t;; Ok (if is_sum t then bracketfy "(" ")" t s else s).
(** _base_latex inside Power.latex, expr.py:1375-1378 *)
Definition base_latex (t : expr) : res string :=
  s <- lx t;;
  Ok (if is_sum t || is_prod t || isfractionorneg t || islongsymbol t
      then bracketfy "(" ")" t s else s).
(** the loop of Sum.latex after the first term, expr.py:946-952 *)
Fixpoint sum_latex (l : list expr) : res string :=
  match l with
  | [] => Ok ""
  | t :: r =>
      s <- (if is_sub t then n <- op_neg k t;; s <- lx n;; Ok (" - " ++ s)
            else s <- lx t;; Ok (" + " ++ s));;
      s' <- sum_latex r;; Ok (s ++ s')
  end.
(** latex of every class: Rat 600-605, Pi 637, E 648, infinities 661, 680, Symbol 811, Any_
    regex.py:57-58, Sum 944-954, Prod 1214-1234, Power 1372-1386, log 1579-1586, TrigFunction
    1808-1815 (the func of asin, acos, atan is "sin", "cos", "tan": 1970, 1983, 1996), Abs
    2016-2019. *)
Definition latex_body (e : expr) : res string :=
  match e with
  | ERat q => Ok (latex_Q q)
  | EPi => Ok "\pi"
  | EE => Ok "e"
  | EInf => Ok "\infty"
  | ENegInf => Ok "-\infty"
  | ESym s => Ok s
  | EAny _ => Raise NotImplementedError
  | ESum [] => Ok ""
  | ESum (t :: r) => s <- lx t;; s' <- sum_latex r;; Ok (s ++ s')
  | EProd ts =>
      if is_sub e then
        n <- op_mul k e (ERat (-1));;
        s <- (if is_prod n then lx n else term_latex n);; Ok ("-" ++ s)
      else
        '(n, d) <- numden k ts;;
        if isq d 1 then ss <- mapM term_latex ts;; Ok (String.concat " \cdot " ss)
        else ns <- lx n;; ds <- lx d;; Ok ("\frac " ++ group ns ++ group ds)
  | EPow b x =>
      if isq x (1 # 2) then s <- lx b;; Ok ("\sqrt{" ++ s ++ "}")
      else if isq x (-1 # 2) then s <- lx b;; Ok ("{\sqrt{" ++ s ++ "}" ++ "}^{-1}")
      else s <- base_latex b;; t <- lx x;; Ok (s ++ "^" ++ group t)
  | ELog i b =>
      q <- py_eq c b EE;;
      if q : bool then s <- lx i;; Ok ("\ln " ++ bracketfy "(" ")" i s)
      else t <- lx b;; s <- lx i;; Ok ("\log_{" ++ t ++ "} " ++ bracketfy "(" ")" i s)
  | ETrig f i =>
      s <- lx i;;
      Ok ("\" ++ trig_label (trig_func f) ++ (if is_inverse f then "^{-1} " else " ")
          ++ bracketfy "(" ")" i s)
  | EAbs i => s <- lx i;; Ok (bracketfy "|" "|" i s)
  end.
End Rec.
(** recursion bounded by [n] (-x may be bigger than x) *)
Fixpoint latexE (n : nat) (e : expr) : res string :=
  match n with O => Stop OutOfFuel | S n => latex_body (latexE n) e end.
End Latex.

(** ** Balanced text composes *)
Definition ok (s : string) : Prop :=
  forall st, exists m st', run Txt st s = Some (m, st') /\ fin m st' = Some st.
Lemma run_app s t : forall m st,
  run m st (s ++ t) = match run m st s with Some (m', st') => run m' st' t | None => None end.
Proof.
  induction s as [|a s IH]; intros m st; simpl; auto.
  destruct (step m st a) as [[m' st']|]; auto.
Qed.
Lemma fin_step m st st' a : fin m st' = Some st -> is_letter a = false -> step m st' a = chr a st.
Proof.
  destruct m as [|w]; cbn [fin step]; [congruence|]. intros H ->.
  destruct (String.eqb w ""); [discriminate|]. now rewrite H.
Qed.
(** [t] is empty or starts with a non-letter *)
Definition lead (t : string) : Prop := match t with "" => True | String a _ => is_letter a = false end.
Lemma ok_run s t : ok s -> lead t -> t <> "" -> forall st, run Txt st (s ++ t) = run Txt st t.
Proof.
  intros Hs Ht Hn st. destruct (Hs st) as (m & st' & H1 & H2). rewrite run_app, H1.
  destruct t as [|a t]; [congruence|]. cbn [run]. now rewrite (fin_step _ _ _ _ H2 Ht).
Qed.
Lemma ok_app s t : ok s -> ok t -> lead t -> ok (s ++ t).
Proof.
  intros Hs Ht Hl st. destruct t as [|a t].
  - destruct (Hs st) as (m & st' & H1 & H2). exists m, st'. rewrite run_app, H1. auto.
  - rewrite (ok_run _ _ Hs Hl) by discriminate. apply Ht.
Qed.
Lemma ok_nil : ok "".
Proof. intros st. exists Txt, st. auto. Qed.
Lemma ok_braces s : ok s -> ok ("{" ++ s ++ "}").
Proof.
  intros Hs st. cbn [append run step]. replace (chr "{" st) with (Some (Txt, Brace :: st)) by reflexivity.
  rewrite (ok_run s "}" Hs eq_refl) by discriminate. exists Txt, st. auto.
Qed.
Lemma ok_group s : ok s -> ok (group s).
Proof. intros Hs. unfold group. destruct (Nat.eqb _ _); auto using ok_braces. Qed.
(** a control word, not \left or \right, followed by a non-letter *)
Lemma ok_after p s : (forall st, run Txt st p = Some (Txt, st)) -> ok s -> ok (p ++ s).
Proof. intros Hp Hs st. rewrite run_app, Hp. apply Hs. Qed.
Lemma ok_char a s : is_letter a = false -> a <> bslash -> a <> "{"%char -> a <> "}"%char -> ok s -> ok (String a s).
Proof.
  intros _ H1 H2 H3 Hs. apply (ok_after (String a "")); auto. intros st. cbn [run step]. unfold chr.
  apply Ascii.eqb_neq in H1, H2, H3. now rewrite H1, H2, H3.
Qed.
Lemma ok_round b1 b2 s : lead b2 -> b2 <> "" -> (forall st, run Txt st b1 = Some (Txt, st)) ->
  (forall st, run Txt st b2 = Some (Txt, st)) -> ok s -> ok (b1 ++ s ++ b2).
Proof.
  intros Hl Hn H1 H2 Hs. apply ok_after; auto. intros st. rewrite (ok_run s b2 Hs Hl Hn), H2.
  exists Txt, st. auto.
Qed.
Lemma ok_paren e s : ok s -> ok (bracketfy "(" ")" e s).
Proof.
  intros Hs. unfold bracketfy. destruct (has_pow e).
  - intros st. change ("\left" ++ "(" ++ " " ++ s ++ " \right" ++ ")") with ("\left( " ++ (s ++ " \right)")).
    rewrite run_app. change (run Txt st "\left( ") with (Some (Txt, Left :: st)). cbv iota beta.
    rewrite (ok_run s " \right)" Hs eq_refl) by discriminate. exists Txt, st. auto.
  - apply ok_round; auto; first [reflexivity|discriminate|intros; reflexivity].
Qed.
Lemma ok_bars e s : ok s -> ok (bracketfy "|" "|" e s).
Proof.
  intros Hs. unfold bracketfy. destruct (has_pow e).
  - intros st. change ("\left" ++ "|" ++ " " ++ s ++ " \right" ++ "|") with ("\left| " ++ (s ++ " \right|")).
    rewrite run_app. change (run Txt st "\left| ") with (Some (Txt, Left :: st)). cbv iota beta.
    rewrite (ok_run s " \right|" Hs eq_refl) by discriminate. exists Txt, st. auto.
  - apply ok_round; auto; first [reflexivity|discriminate|intros; reflexivity].
Qed.

(** text without backslashes and braces *)
Fixpoint plain_text (s : string) : bool :=
  match s with
  | "" => true
  | String a r => negb (Ascii.eqb a bslash) && negb (Ascii.eqb a "{") && negb (Ascii.eqb a "}") && plain_text r
  end.
Lemma plain_run s : plain_text s = true -> forall st, run Txt st s = Some (Txt, st).
Proof.
  induction s as [|a s IH]; intros H st; auto. cbn [plain_text] in H.
  apply andb_prop in H as [H H4]. apply andb_prop in H as [H H3]. apply andb_prop in H as [H1 H2].
  cbn [run step]. unfold chr. apply negb_true_iff in H1, H2, H3. rewrite H1, H2, H3. auto.
Qed.
Lemma ok_plain s : plain_text s = true -> ok s.
Proof. intros H st. exists Txt, st. split; auto using plain_run. Qed.

Lemma uint_plain u : plain_text (NilEmpty.string_of_uint u) = true.
Proof. induction u; simpl; auto. Qed.
Lemma str_Z_plain z : plain_text (str_Z z) = true.
Proof.
  unfold str_Z, NilZero.string_of_int. destruct (Z.to_int z) as [u|u]; simpl;
    unfold NilZero.string_of_uint; destruct u; simpl; auto using uint_plain.
Qed.
(** after a group, no control word is pending *)
Lemma group_run s : ok s -> forall st, run Txt st (group s) = Some (Txt, st).
Proof.
  intros Hs st. unfold group. destruct (Nat.eqb (String.length s) 1) eqn:E.
  - destruct s as [|a [|]]; try discriminate. destruct (Hs st) as (m & st' & H1 & H2).
    cbn [run step] in *. destruct (chr a st) as [[m1 st1]|] eqn:Ec; [|discriminate].
    assert (m1 = m /\ st1 = st') as [-> ->] by (split; congruence). unfold chr in Ec. destruct (Ascii.eqb a bslash).
    + injection Ec as <- <-. discriminate H2.
    + assert (m = Txt) as ->.
      { destruct (Ascii.eqb a "{"); [congruence|]. destruct (Ascii.eqb a "}"); [|congruence].
        destruct st as [|[] ?]; congruence. }
      cbn [fin] in H2. congruence.
  - cbn [append run step]. replace (chr "{" st) with (Some (Txt, Brace :: st)) by reflexivity.
    rewrite (ok_run s "}" Hs eq_refl) by discriminate. reflexivity.
Qed.
Lemma ok_frac s t : ok s -> ok t -> ok ("\frac " ++ group s ++ group t).
Proof.
  intros Hs Ht. apply ok_after; [reflexivity|]. apply ok_after; auto using group_run, ok_group.
Qed.
Lemma ok_concat ss : Forall ok ss -> ok (String.concat " \cdot " ss).
Proof.
  induction 1 as [|s ss Hs H IH]; [apply ok_nil|]. destruct ss as [|t ss]; [exact Hs|].
  cbn [String.concat] in *. apply ok_app; [exact Hs| |reflexivity]. apply ok_after; [reflexivity|exact IH].
Qed.

(** the stack below is not looked at *)
Lemma word_ext w st st' x : word w st = Some st' -> word w (st ++ x)%list = Some (st' ++ x)%list.
Proof.
  unfold word. destruct (String.eqb w "left"); [intros [= <-]; auto|].
  destruct (String.eqb w "right"); [|intros [= <-]; auto].
  destruct st as [|[] st]; try discriminate. intros [= <-]; auto.
Qed.
Lemma chr_ext a st m st' x : chr a st = Some (m, st') -> chr a (st ++ x)%list = Some (m, st' ++ x)%list.
Proof.
  unfold chr. destruct (Ascii.eqb a bslash); [intros [= <- <-]; auto|].
  destruct (Ascii.eqb a "{"); [intros [= <- <-]; auto|].
  destruct (Ascii.eqb a "}"); [|intros [= <- <-]; auto].
  destruct st as [|[] st]; try discriminate. intros [= <- <-]; auto.
Qed.
Lemma run_ext x s : forall m st m' st', run m st s = Some (m', st') -> run m (st ++ x)%list s = Some (m', st' ++ x)%list.
Proof.
  induction s as [|a s IH]; intros m st m' st' H; cbn [run] in *; [congruence|].
  destruct (step m st a) as [[m1 st1]|] eqn:E; [|discriminate].
  assert (step m (st ++ x)%list a = Some (m1, st1 ++ x)%list) as ->; [|auto].
  destruct m as [|w]; cbn [step] in *; [now apply chr_ext|].
  destruct (is_letter a); [injection E as <- <-; auto|].
  destruct (String.eqb w ""); [injection E as <- <-; auto|].
  destruct (word w st) as [st2|] eqn:Ew; [|discriminate]. rewrite (word_ext _ _ _ x Ew). now apply chr_ext.
Qed.
Lemma balanced_ok s : balanced s -> ok s.
Proof.
  intros (m & st & H1 & H2) x. exists m, (st ++ x)%list. split; [exact (run_ext x _ _ _ _ _ H1)|].
  destruct m as [|w]; cbn [fin] in *; [injection H2 as ->; auto|].
  destruct (String.eqb w ""); [discriminate|]. now rewrite (word_ext _ _ _ x H2).
Qed.
Lemma ok_balanced s : ok s -> balanced s.
Proof. intros H. destruct (H []) as (m & st & H1 & H2). exists m, st. auto. Qed.

(** ** Theorem *)
(** every symbol occurring in [e] has a name that is itself balanced *)
Definition names_ok (e : expr) : Prop := forall v, contains v e = true -> ok v.
Lemma names_her : Her names_ok.
Proof.
  apply mkHer; unfold names_ok; cbn [contains]; try discriminate.
  - intros ts. rewrite Forall_forall. split.
    + intros H t Ht v Hv. apply H. apply existsb_exists. eauto.
    + intros H v Hv. apply existsb_exists in Hv as (t & H1 & H2). eapply H; eauto.
  - intros ts. rewrite Forall_forall. split.
    + intros H t Ht v Hv. apply H. apply existsb_exists. eauto.
    + intros H v Hv. apply existsb_exists in Hv as (t & H1 & H2). eapply H; eauto.
  - intros b x. split.
    + intros H. split; intros v Hv; apply H; rewrite Hv; auto using orb_true_r.
    + intros [H1 H2] v Hv. apply orb_prop in Hv as [Hv|Hv]; auto.
  - intros b x H. split; intros v Hv; apply H; rewrite Hv; auto using orb_true_r.
  - auto.
  - intros i. split; auto.
Qed.

Section Bal.
Context (c : cfg) (k : kern) (HK : KHer True names_ok k).
Notation rall := (rall True).
Section Rec.
Context (lx : expr -> res string) (Hlx : forall e, names_ok e -> rall ok (lx e)).
Lemma term_latex_ok t : names_ok t -> rall ok (term_latex lx t).
Proof.
  intros H. eapply rall_bind; [exact (Hlx t H)|]. intros s Hs. apply rall_ok.
  destruct (is_sum t); auto using ok_paren.
Qed.
Lemma base_latex_ok t : names_ok t -> rall ok (base_latex lx t).
Proof.
  intros H. eapply rall_bind; [exact (Hlx t H)|]. intros s Hs. apply rall_ok.
  destruct (_ || _)%bool; auto using ok_paren.
Qed.
Lemma sum_latex_ok l : Forall names_ok l -> rall (fun s => ok s /\ lead s) (sum_latex k lx l).
Proof.
  induction 1 as [|t l Ht _ IH]; cbn [sum_latex]; [apply rall_ok; split; [apply ok_nil|exact I]|].
  eapply (rall_bind _ (fun s => ok s /\ lead s)).
  - destruct (is_sub t).
    + eapply rall_bind; [exact (op_neg_her True names_ok names_her k HK t Ht)|]. intros n Hn.
      eapply rall_bind; [exact (Hlx n Hn)|]. intros s Hs. apply rall_ok. split; [|reflexivity].
      apply (ok_after " - "); auto.
    + eapply rall_bind; [exact (Hlx t Ht)|]. intros s Hs. apply rall_ok. split; [|reflexivity].
      apply (ok_after " + "); auto.
  - intros s [Hs Ls]. eapply rall_bind; [exact IH|]. intros s' [Hs' Ls']. apply rall_ok. split.
    + apply ok_app; auto.
    + destruct s; auto.
Qed.
Lemma latex_body_ok e : names_ok e -> rall ok (latex_body c k lx e).
Proof.
  intros He. destruct e as [q| | | | |s|s|ts|ts|b x|i b|f i|i]; cbn [latex_body].
  - apply rall_ok. unfold latex_Q. destruct (_ =? _)%Z; [apply ok_plain, str_Z_plain|].
    apply ok_frac; apply ok_plain, str_Z_plain.
  - apply rall_ok. intros st. exists (Cmd "pi"), st. auto.
  - apply rall_ok. apply ok_plain. reflexivity.
  - apply rall_ok. intros st. exists (Cmd "infty"), st. auto.
  - apply rall_ok. intros st. exists (Cmd "infty"), st. auto.
  - apply rall_ok. apply He. cbn [contains]. apply String.eqb_refl.
  - exact I.
  - apply (h_sum _ names_her) in He. destruct He as [|t l Ht Hl]; [apply rall_ok, ok_nil|].
    eapply rall_bind; [exact (Hlx t Ht)|]. intros s Hs.
    eapply rall_bind; [exact (sum_latex_ok l Hl)|]. intros s' [H1 H2]. apply rall_ok. now apply ok_app.
  - destruct (is_sub (EProd ts)).
    + eapply rall_bind; [exact (op_mul_her True names_ok names_her k HK _ _ He (h_rat _ names_her _))|].
      intros n Hn. eapply (rall_bind _ ok); [destruct (is_prod n); auto using term_latex_ok|].
      intros s Hs. apply rall_ok. apply (ok_after "-"); auto.
    + apply (h_prod _ names_her) in He.
      eapply rall_bind; [exact (numden_her True names_ok names_her k HK ts He)|]. intros [n d] [Hn Hd].
      destruct (isq d 1).
      * eapply rall_bind; [exact (rall_mapM _ _ ok _ ts He term_latex_ok)|]. intros ss Hss.
        apply rall_ok. now apply ok_concat.
      * eapply rall_bind; [exact (Hlx n Hn)|]. intros ns Hns.
        eapply rall_bind; [exact (Hlx d Hd)|]. intros ds Hds. apply rall_ok. now apply ok_frac.
  - apply (h_pow _ names_her) in He as [Hb Hx]. destruct (isq x (1 # 2)).
    + eapply rall_bind; [exact (Hlx b Hb)|]. intros s Hs. apply rall_ok.
      intros st. exists Txt, st. split; auto. rewrite run_app.
      change (run Txt st "\sqrt{") with (Some (Txt, Brace :: st)). cbv iota beta.
      rewrite (ok_run s "}" Hs eq_refl) by discriminate. reflexivity.
    + destruct (isq x (-1 # 2)).
      * eapply rall_bind; [exact (Hlx b Hb)|]. intros s Hs. apply rall_ok.
        intros st. exists Txt, st. split; auto.
        change ("{\sqrt{" ++ s ++ "}" ++ "}^{-1}") with ("{\sqrt{" ++ (s ++ "}}^{-1}")).
        rewrite run_app. change (run Txt st "{\sqrt{") with (Some (Txt, Brace :: Brace :: st)). cbv iota beta.
        rewrite (ok_run s "}}^{-1}" Hs eq_refl) by discriminate. reflexivity.
      * eapply rall_bind; [exact (base_latex_ok b Hb)|]. intros s Hs.
        eapply rall_bind; [exact (Hlx x Hx)|]. intros t Ht. apply rall_ok.
        apply ok_app; auto; [|reflexivity]. apply (ok_after "^"); auto using ok_group.
  - apply (h_log _ names_her) in He as [Hi Hb].
    eapply (rall_bind _ (fun _ => True)); [unfold py_eq; destruct (_ && _)%bool; exact I|]. intros [] _.
    + eapply rall_bind; [exact (Hlx i Hi)|]. intros s Hs. apply rall_ok.
      apply ok_after; auto using ok_paren.
    + eapply rall_bind; [exact (Hlx b Hb)|]. intros t Ht.
      eapply rall_bind; [exact (Hlx i Hi)|]. intros s Hs. apply rall_ok.
      intros st. rewrite run_app. change (run Txt st "\log_{") with (Some (Txt, Brace :: st)). cbv iota beta.
      rewrite (ok_run t _ Ht) by (reflexivity || discriminate). rewrite run_app.
      change (run Txt (Brace :: st) "} ") with (Some (Txt, st)). cbv iota beta. now apply ok_paren.
  - apply (h_trig _ names_her) in He. eapply rall_bind; [exact (Hlx i He)|]. intros s Hs. apply rall_ok.
    pose proof (ok_paren i s Hs) as Hp. intros st.
    destruct f; cbn [trig_func trig_label is_inverse append];
      match goal with |- exists m st', run Txt st ?t = _ /\ _ =>
        cbn [run]; repeat (change (step Txt st bslash) with (Some (Cmd "", st))) end; cbn; apply Hp.
  - apply (h_abs _ names_her) in He. eapply rall_bind; [exact (Hlx i He)|]. intros s Hs. apply rall_ok.
    auto using ok_bars.
Qed.
End Rec.
Lemma latexE_ok n e : names_ok e -> rall ok (latexE c k n e).
Proof.
  revert e. induction n as [|n IH]; intros e He; cbn [latexE]; [exact I|]. now apply latex_body_ok.
Qed.
End Bal.

(** C49: whenever latex() returns, the text is balanced, for any names that are themselves
    balanced -- in particular for names without braces and backslashes. *)
Theorem c49_balanced c n m e s :
  (forall v, contains v e = true -> balanced v) -> latexE c (K c n) m e = Ok s -> balanced s.
Proof.
  intros Hv H. apply ok_balanced.
  assert (He : names_ok e) by (intros v Hc; apply balanced_ok; auto).
  pose proof (latexE_ok c (K c n) (K_her True names_ok names_her c n (fun _ _ _ _ _ _ => I) (fun _ _ _ _ _ => I)) m e He) as G.
  now rewrite H in G.
Qed.
Corollary c49_plain_names c n m e s :
  (forall v, contains v e = true -> plain_text v = true) -> latexE c (K c n) m e = Ok s -> balanced s.
Proof. intros Hv. apply c49_balanced. intros v Hc. apply ok_balanced, ok_plain; auto. Qed.
