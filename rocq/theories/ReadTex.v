(** * ReadTex: a reader for LaTeX formulas (for C76).

    Independent of the printer.  A formula is a sequence of characters and control words; blanks only
    end control words.  [+] and [-] bind weaker than [\cdot], this weaker than unary minus, this weaker
    than [^]; operators group to the left.  The exponent and the arguments of [\frac] and [\sqrt] are a
    single character or a group in braces; a function name is followed by a parenthesised argument
    (also [\left( \right)]), possibly with the exponent -1 for the inverse function.  A symbol is one
    letter; [e] is Euler's number.  Syntax trees and their values are those of Read.v. *)
From Coquelicot Require Import Coquelicot.
From Coq Require Import DecimalString DecimalZ.
From Verif Require Import Base Expr Kernel Sem Read.
Local Open Scope nat_scope.

(** ** Characters and control words *)
Inductive ttok := Ch (a : ascii) | Cw (w : string).
Definition letter (a : ascii) : bool := between 65 90 a || between 97 122 a.
Definition digit (a : ascii) : bool := between 48 57 a.
Definition backslash : ascii := "092"%char.
Definition word (m : option string) : list ttok := match m with Some w => [Cw w] | None => [] end.
(** [m]: the control word being read *)
Fixpoint tlexw (m : option string) (s : string) : list ttok :=
  match s with
  | ""%string => word m
  | String a r =>
      match m with
      | Some w => if letter a then tlexw (Some (w ++ String a "")%string) r
                  else word m ++ (if Ascii.eqb a " " then tlexw None r
                                  else if Ascii.eqb a backslash then tlexw (Some ""%string) r else Ch a :: tlexw None r)
      | None => if Ascii.eqb a " " then tlexw None r
                else if Ascii.eqb a backslash then tlexw (Some ""%string) r else Ch a :: tlexw None r
      end
  end.
Definition tlex (s : string) : list ttok := tlexw None s.

(** ** The reader *)
Definition tfuns : list string := ["ln"; "sin"; "cos"; "tan"; "csc"; "sec"; "cot"]%string.
Definition tfun (w : string) : bool := existsb (String.eqb w) tfuns.
Definition teat (a : ascii) (ts : list ttok) : option (list ttok) :=
  match ts with Ch b :: r => if Ascii.eqb b a then Some r else None | _ => None end.
Definition teatw (w : string) (ts : list ttok) : option (list ttok) :=
  match ts with Cw v :: r => if String.eqb v w then Some r else None | _ => None end.
(** [\right] and a bracket *)
Definition tright (a : ascii) (ts : list ttok) : option (list ttok) :=
  match teatw "right" ts with Some r => teat a r | None => None end.
Fixpoint digits (ts : list ttok) : string * list ttok :=
  match ts with
  | Ch a :: r => if digit a then let '(w, r') := digits r in (String a w, r') else (""%string, ts)
  | _ => (""%string, ts)
  end.
(** the exponent -1 *)
Definition minus_one (ts : list ttok) : option (list ttok) :=
  match ts with
  | Ch a :: Ch b :: Ch c :: Ch d :: Ch e :: r =>
      if Ascii.eqb a "^" && Ascii.eqb b "{" && Ascii.eqb c "-" && Ascii.eqb d "1" && Ascii.eqb e "}" then Some r else None
  | _ => None
  end.
Inductive tgoal := TGSum | TGSums (t : tree) | TGProd | TGProds (t : tree) | TGUnary | TGPow | TGAtom | TGArg | TGBr.
Notation "'let?' ( t , r ) ':=' e 'in' f" := (match e with Some (t, r) => f | None => None end) (at level 200, t name, r name, e at level 100, f at level 200).
Definition tclose (o : option (tree * list ttok)) (f : tree -> tree) (g : list ttok -> option (list ttok)) : option (tree * list ttok) :=
  match o with Some (t, r) => match g r with Some r' => Some (f t, r') | None => None end | None => None end.
Fixpoint tparse (n : nat) (g : tgoal) (ts : list ttok) : option (tree * list ttok) :=
  match n with
  | O => None
  | S n =>
      match g with
      | TGSum => let? (t, r) := tparse n TGProd ts in tparse n (TGSums t) r
      | TGSums t =>
          match teat "+" ts with
          | Some r => let? (u, r') := tparse n TGProd r in tparse n (TGSums (TBin OAdd t u)) r'
          | None =>
              match teat "-" ts with
              | Some r => let? (u, r') := tparse n TGProd r in tparse n (TGSums (TBin OSub t u)) r'
              | None => Some (t, ts)
              end
          end
      | TGProd => let? (t, r) := tparse n TGUnary ts in tparse n (TGProds t) r
      | TGProds t =>
          match teatw "cdot" ts with
          | Some r => let? (u, r') := tparse n TGUnary r in tparse n (TGProds (TBin OMul t u)) r'
          | None => Some (t, ts)
          end
      | TGUnary =>
          match teat "-" ts with
          | Some r => let? (t, r') := tparse n TGUnary r in Some (TNeg t, r')
          | None => tparse n TGPow ts
          end
      | TGPow =>
          let? (t, r) := tparse n TGAtom ts in
          match teat "^" r with
          | Some r1 => let? (u, r') := tparse n TGArg r1 in Some (TBin OPow t u, r')
          | None => Some (t, r)
          end
      | TGArg =>
          match ts with
          | Ch a :: r =>
              if digit a then match NilZero.uint_of_string (String a "") with Some u => Some (TNum (Z.of_uint u), r) | None => None end
              else if letter a then Some (TName (String a ""), r)
              else if Ascii.eqb a "{" then tclose (tparse n TGSum r) (fun t => t) (teat "}")
              else None
          | _ => None
          end
      | TGBr =>
          match ts with
          | Ch a :: r => if Ascii.eqb a "(" then tclose (tparse n TGSum r) (fun t => t) (teat ")") else None
          | Cw w :: Ch a :: r => if String.eqb w "left" && Ascii.eqb a "(" then tclose (tparse n TGSum r) (fun t => t) (tright ")") else None
          | _ => None
          end
      | TGAtom =>
          match ts with
          | [] => None
          | Ch a :: r =>
              if digit a then let '(w, r') := digits ts in
                match NilZero.uint_of_string w with Some u => Some (TNum (Z.of_uint u), r') | None => None end
              else if letter a then Some (TName (String a ""), r)
              else if Ascii.eqb a "{" then tclose (tparse n TGSum r) (fun t => t) (teat "}")
              else if Ascii.eqb a "|" then tclose (tparse n TGSum r) TBars (teat "|")
              else tparse n TGBr ts
          | Cw w :: r =>
              if String.eqb w "pi" then Some (TName "pi", r)
              else if String.eqb w "frac" then let? (t, r1) := tparse n TGArg r in let? (u, r2) := tparse n TGArg r1 in Some (TBin ODiv t u, r2)
              else if String.eqb w "sqrt" then let? (t, r1) := tparse n TGArg r in Some (TCall "sqrt" t, r1)
              else if tfun w then
                match minus_one r with
                | Some r1 => let? (t, r2) := tparse n TGBr r1 in Some (TCall ("a" ++ w) t, r2)
                | None => let? (t, r2) := tparse n TGBr r in Some (TCall w t, r2)
                end
              else if String.eqb w "left" then
                match teat "|" r with
                | Some r1 => tclose (tparse n TGSum r1) TBars (tright "|")
                | None => tparse n TGBr ts
                end
              else None
          end
      end
  end.
Definition tex_reads (s : string) (t : tree) : Prop := exists N, forall n, N <= n -> tparse n TGSum (tlex s) = Some (t, []).
Lemma tex_unique s t u : tex_reads s t -> tex_reads s u -> t = u.
Proof. intros (N & A) (M & B). specialize (A (N + M) ltac:(lia)). specialize (B (N + M) ltac:(lia)). congruence. Qed.

(** ** Lexing concatenations *)
Lemma tlexw_app m s a r : letter a = false -> tlexw m (s ++ String a r) = tlexw m s ++ tlex (String a r).
Proof.
  intros Ha. revert m. induction s as [|b s IH]; intros m.
  - cbn [String.append tlexw tlex]. destruct m as [w|]; [rewrite Ha|]; reflexivity.
  - cbn [String.append tlexw]. destruct m as [w|].
    + destruct (letter b); [apply IH|]. rewrite <- app_assoc. f_equal. destruct (Ascii.eqb b " "); [apply IH|]. destruct (Ascii.eqb b backslash); [apply IH|].
      rewrite IH. reflexivity.
    + destruct (Ascii.eqb b " "); [apply IH|]. destruct (Ascii.eqb b backslash); [apply IH|]. rewrite IH. reflexivity.
Qed.
Lemma tlex_app s a r : letter a = false -> tlex (s ++ String a r) = tlex s ++ tlex (String a r).
Proof. apply tlexw_app. Qed.
Lemma tlex_ch a r : Ascii.eqb a " " = false -> Ascii.eqb a backslash = false -> tlex (String a r) = Ch a :: tlex r.
Proof. intros A B. unfold tlex. cbn [tlexw]. now rewrite A, B. Qed.
Lemma tlex_sp r : tlex (String " " r) = tlex r.
Proof. reflexivity. Qed.
Fixpoint letters (s : string) : bool := match s with ""%string => true | String a r => letter a && letters r end.
Lemma tlexw_word w : forall v, letters w = true -> forall a r, letter a = false -> tlexw (Some v) (w ++ String a r) = Cw (v ++ w) :: tlex (String a r).
Proof.
  induction w as [|b w IH]; intros v H a r Ha.
  - rewrite str_app_nil. cbn [String.append tlexw]. rewrite Ha. reflexivity.
  - cbn [letters] in H. apply andb_prop in H as [H1 H2]. cbn [String.append tlexw]. rewrite H1, IH by auto. now rewrite str_app_assoc.
Qed.
(** a control word ended by a non-letter *)
Lemma tlex_word w a r : letters w = true -> letter a = false -> tlex (String backslash (w ++ String a r)) = Cw w :: tlex (String a r).
Proof. intros H Ha. unfold tlex at 1. cbn [tlexw]. exact (tlexw_word w "" H a r Ha). Qed.

(** ** Grammar *)
Inductive tlevel := TArg | TBr | TAtom | TPow | TUnary | TProd | TSum.
Inductive TG : tlevel -> list ttok -> tree -> Prop :=
| t_digit a u : digit a = true -> NilZero.uint_of_string (String a "") = Some u -> TG TArg [Ch a] (TNum (Z.of_uint u))
| t_letter a : letter a = true -> TG TArg [Ch a] (TName (String a ""))
| t_group ts t : TG TSum ts t -> TG TArg (Ch "{" :: ts ++ [Ch "}"]) t
| t_paren ts t : TG TSum ts t -> TG TBr (Ch "(" :: ts ++ [Ch ")"]) t
| t_left ts t : TG TSum ts t -> TG TBr (Cw "left" :: Ch "(" :: ts ++ [Cw "right"; Ch ")"]) t
| t_num a w u : digit a = true -> (forall b, In b (list_ascii_of_string w) -> digit b = true) -> NilZero.uint_of_string (String a w) = Some u ->
    TG TAtom (map Ch (list_ascii_of_string (String a w))) (TNum (Z.of_uint u))
| t_name a : letter a = true -> TG TAtom [Ch a] (TName (String a ""))
| t_pi : TG TAtom [Cw "pi"] (TName "pi")
| t_bra ts t : TG TBr ts t -> TG TAtom ts t
| t_grp ts t : TG TSum ts t -> TG TAtom (Ch "{" :: ts ++ [Ch "}"]) t
| t_bars ts t : TG TSum ts t -> TG TAtom (Ch "|" :: ts ++ [Ch "|"]) (TBars t)
| t_lbars ts t : TG TSum ts t -> TG TAtom (Cw "left" :: Ch "|" :: ts ++ [Cw "right"; Ch "|"]) (TBars t)
| t_frac ts t us u : TG TArg ts t -> TG TArg us u -> TG TAtom (Cw "frac" :: ts ++ us) (TBin ODiv t u)
| t_sqrt ts t : TG TArg ts t -> TG TAtom (Cw "sqrt" :: ts) (TCall "sqrt" t)
| t_fun w ts t : tfun w = true -> TG TBr ts t -> TG TAtom (Cw w :: ts) (TCall w t)
| t_inv w ts t : tfun w = true -> TG TBr ts t -> TG TAtom (Cw w :: Ch "^" :: Ch "{" :: Ch "-" :: Ch "1" :: Ch "}" :: ts) (TCall ("a" ++ w) t)
| t_ap ts t : TG TAtom ts t -> TG TPow ts t
| t_pow ts t us u : TG TAtom ts t -> TG TArg us u -> TG TPow (ts ++ Ch "^" :: us) (TBin OPow t u)
| t_pu ts t : TG TPow ts t -> TG TUnary ts t
| t_neg ts t : TG TUnary ts t -> TG TUnary (Ch "-" :: ts) (TNeg t)
| t_um ts t : TG TUnary ts t -> TG TProd ts t
| t_mul ts t us u : TG TProd ts t -> TG TUnary us u -> TG TProd (ts ++ Cw "cdot" :: us) (TBin OMul t u)
| t_ms ts t : TG TProd ts t -> TG TSum ts t
| t_add ts t us u : TG TSum ts t -> TG TProd us u -> TG TSum (ts ++ Ch "+" :: us) (TBin OAdd t u)
| t_sub ts t us u : TG TSum ts t -> TG TProd us u -> TG TSum (ts ++ Ch "-" :: us) (TBin OSub t u).

(** ** The reader finds what the grammar describes *)
Definition tyields g ts t r := exists N, forall n, N <= n -> tparse n g ts = Some (t, r).
Definition first (f : ttok -> bool) (ts : list ttok) : bool := match ts with k :: _ => f k | [] => false end.
Definition kdig (k : ttok) : bool := match k with Ch a => digit a | _ => false end.
Definition khat (k : ttok) : bool := match k with Ch a => Ascii.eqb a "^" | _ => false end.
Definition kdot (k : ttok) : bool := match k with Cw w => String.eqb w "cdot" | _ => false end.
Definition kpm (k : ttok) : bool := match k with Ch a => Ascii.eqb a "+" || Ascii.eqb a "-" | _ => false end.
Definition k2 k := kdig k || khat k.
Definition k3 k := kdig k || khat k || kdot k.
Lemma first_or f g ts : first (fun k => f k || g k) ts = first f ts || first g ts.
Proof. destruct ts; reflexivity. Qed.
Lemma f3 ts : first k3 ts = false -> first kdig ts = false /\ first khat ts = false /\ first kdot ts = false.
Proof. unfold k3. destruct ts; cbn [first]; auto. rewrite !orb_false_iff. tauto. Qed.
Lemma f2 ts : first k2 ts = false -> first kdig ts = false /\ first khat ts = false.
Proof. unfold k2. destruct ts; cbn [first]; auto. rewrite !orb_false_iff. tauto. Qed.
Lemma no_hat ts : first khat ts = false -> teat "^" ts = None.
Proof. destruct ts as [|[a|w] r]; cbn; auto. now intros ->. Qed.
Lemma no_dot ts : first kdot ts = false -> teatw "cdot" ts = None.
Proof. destruct ts as [|[a|w] r]; cbn [first kdot teatw]; auto. now intros ->. Qed.
Lemma no_pm ts : first kpm ts = false -> teat "+" ts = None /\ teat "-" ts = None.
Proof. destruct ts as [|[a|w] r]; cbn [first kpm teat]; auto. rewrite orb_false_iff. now intros [-> ->]. Qed.
Lemma ty_step g ts t r (f : nat -> option (tree * list ttok)) :
  (forall n, tparse (S n) g ts = f n) -> (exists N, forall n, N <= n -> f n = Some (t, r)) -> tyields g ts t r.
Proof. intros E (N & H). exists (S N). intros [|n] Hn; [lia|]. rewrite E. apply H. lia. Qed.
Lemma ty_bind g ts t r (f : nat -> tree -> list ttok -> option (tree * list ttok)) t' r' :
  tyields g ts t r -> (exists N, forall n, N <= n -> f n t r = Some (t', r')) ->
  exists N, forall n, N <= n -> (let? (t, r) := tparse n g ts in f n t r) = Some (t', r').
Proof. intros (N & A) (M & B). exists (N + M). intros n Hn. rewrite A by lia. apply B. lia. Qed.
Lemma ty_now (t : tree) (r : list ttok) : exists N, forall n : nat, N <= n -> Some (t, r) = Some (t, r).
Proof. exists 0. auto. Qed.
Lemma ty_close g ts t r f c r' : tyields g ts t r -> c r = Some r' -> exists N, forall n, N <= n -> tclose (tparse n g ts) f c = Some (f t, r').
Proof. intros (N & A) E. exists N. intros n Hn. unfold tclose. now rewrite A, E. Qed.
Lemma tsums_stop t r : first kpm r = false -> tyields (TGSums t) r t r.
Proof. intros H. destruct (no_pm r H) as [E1 E2]. eapply ty_step; [intros n; cbn [tparse]; rewrite E1, E2; reflexivity|apply ty_now]. Qed.
Lemma tprods_stop t r : first kdot r = false -> tyields (TGProds t) r t r.
Proof. intros H. eapply ty_step; [intros n; cbn [tparse]; rewrite (no_dot r H); reflexivity|apply ty_now]. Qed.
Definition tcont (l : tlevel) (ts : list ttok) (t : tree) : Prop :=
  match l with
  | TArg => forall rest, tyields TGArg (ts ++ rest) t rest
  | TBr => forall rest, tyields TGBr (ts ++ rest) t rest
  | TAtom => forall rest, first kdig rest = false -> tyields TGAtom (ts ++ rest) t rest
  | TPow => forall rest, first k2 rest = false -> tyields TGPow (ts ++ rest) t rest
  | TUnary => forall rest, first k2 rest = false -> tyields TGUnary (ts ++ rest) t rest
  | TProd => forall rest t' r, first k2 rest = false -> tyields (TGProds t) rest t' r -> tyields TGProd (ts ++ rest) t' r
  | TSum => forall rest t' r, first k3 rest = false -> tyields (TGSums t) rest t' r -> tyields TGSum (ts ++ rest) t' r
  end.
Lemma tclosed ts t k rest : first k3 (k :: rest) = false -> kpm k = false -> tcont TSum ts t -> tyields TGSum (ts ++ k :: rest) t (k :: rest).
Proof. intros H1 H2 H. apply H; auto. now apply tsums_stop. Qed.
Lemma tfirst l ts t : TG l ts t -> exists k r, ts = k :: r /\ (l <> TUnary -> l <> TProd -> l <> TSum -> k <> Ch "-").
Proof.
  induction 1 as [a u Hd Hu|a Hl|ts t G1 IH|ts t G1 IH|ts t G1 IH|a w u Hd Hw Hu|a Hl| |ts t G1 IH|ts t G1 IH|ts t G1 IH|ts t G1 IH
    |ts t us u G1 IH1 G2 IH2|ts t G1 IH|w ts t Hf G1 IH|w ts t Hf G1 IH|ts t G1 IH|ts t us u G1 IH1 G2 IH2|ts t G1 IH|ts t G1 IH|ts t G1 IH|ts t us u G1 IH1 G2 IH2
    |ts t G1 IH|ts t us u G1 IH1 G2 IH2|ts t us u G1 IH1 G2 IH2].
  all: try (destruct IH as (k & r & -> & IH); exists k, r; split; [reflexivity|]; intros; first [congruence|apply IH; discriminate]).
  all: try (destruct IH1 as (k & r & -> & IH); eexists k, _; split; [reflexivity|]; intros; first [congruence|apply IH; discriminate]).
  all: eexists; eexists; split; [reflexivity|]; intros; first [discriminate|congruence|intros E; injection E as ->; discriminate].
Qed.
Lemma br_first ts t : TG TBr ts t -> exists r, ts = Ch "(" :: r \/ ts = Cw "left" :: Ch "(" :: r.
Proof. intros H. inversion H; subst; eexists; [left|right]; reflexivity. Qed.
Lemma digits_all w rest : (forall b, In b (list_ascii_of_string w) -> digit b = true) -> first kdig rest = false ->
  digits (map Ch (list_ascii_of_string w) ++ rest) = (w, rest).
Proof.
  intros H R. induction w as [|a w IH]; cbn [list_ascii_of_string map app digits].
  - destruct rest as [|[a|v] rest]; auto. cbn [digits]. cbn in R. now rewrite R.
  - rewrite (H a) by (now left). rewrite IH; auto. intros b Hb. apply H. now right.
Qed.
Lemma tfun_word w : tfun w = true -> letters w = true /\ String.eqb w "pi" = false /\ String.eqb w "frac" = false /\ String.eqb w "sqrt" = false.
Proof.
  intros H. unfold tfun in H. apply existsb_exists in H as (v & Hv & E). apply String.eqb_eq in E. subst v.
  repeat (destruct Hv as [<-|Hv]; [repeat split; reflexivity|]). destruct Hv.
Qed.
Lemma TG_cont l ts t : TG l ts t -> tcont l ts t.
Proof.
  induction 1 as [a u Hd Hu|a Hl|ts t G1 IH|ts t G1 IH|ts t G1 IH|a w u Hd Hw Hu|a Hl| |ts t G1 IH|ts t G1 IH|ts t G1 IH|ts t G1 IH
    |ts t us u G1 IH1 G2 IH2|ts t G1 IH|w ts t Hf G1 IH|w ts t Hf G1 IH|ts t G1 IH|ts t us u G1 IH1 G2 IH2|ts t G1 IH|ts t G1 IH|ts t G1 IH|ts t us u G1 IH1 G2 IH2
    |ts t G1 IH|ts t us u G1 IH1 G2 IH2|ts t us u G1 IH1 G2 IH2]; cbn [tcont].
  - intros rest. eapply ty_step; [intros n; cbn [tparse app]; rewrite Hd, Hu; reflexivity|apply ty_now].
  - intros rest. assert (D : digit a = false). { clear -Hl. destruct (digit a) eqn:E; auto. exfalso. unfold letter, digit, between in *. rewrite orb_true_iff, !andb_true_iff, !Nat.leb_le in *. lia. }
    eapply ty_step; [intros n; cbn [tparse app]; rewrite D, Hl; reflexivity|apply ty_now].
  - intros rest. eapply ty_step; [intros n; cbn [tparse app]; reflexivity|].
    rewrite <- app_assoc. eapply (ty_close TGSum _ t (Ch "}" :: rest) (fun t => t)); [|reflexivity]. apply (tclosed ts t (Ch "}") rest); auto.
  - intros rest. eapply ty_step; [intros n; cbn [tparse app]; reflexivity|].
    rewrite <- app_assoc. eapply (ty_close TGSum _ t (Ch ")" :: rest) (fun t => t)); [|reflexivity]. apply (tclosed ts t (Ch ")") rest); auto.
  - intros rest. eapply ty_step; [intros n; cbn [tparse app]; reflexivity|].
    rewrite <- app_assoc. cbn [app]. eapply (ty_close TGSum _ t (Cw "right" :: Ch ")" :: rest) (fun t => t)); [|reflexivity]. apply (tclosed ts t (Cw "right") (Ch ")" :: rest)); auto.
  - intros rest Hr. eapply ty_step; [intros n; cbn [tparse list_ascii_of_string map app]; rewrite Hd; change (Ch a :: map Ch (list_ascii_of_string w) ++ rest) with (map Ch (list_ascii_of_string (String a w)) ++ rest);
      rewrite digits_all; [rewrite Hu; reflexivity| |exact Hr]; intros b [<-|Hb]; auto|apply ty_now].
  - intros rest Hr. assert (D : digit a = false). { clear -Hl. destruct (digit a) eqn:E; auto. exfalso. unfold letter, digit, between in *. rewrite orb_true_iff, !andb_true_iff, !Nat.leb_le in *. lia. }
    eapply ty_step; [intros n; cbn [tparse app]; rewrite D, Hl; reflexivity|apply ty_now].
  - intros rest Hr. eapply ty_step; [intros n; cbn [tparse app]; reflexivity|apply ty_now].
  - intros rest Hr. destruct (br_first _ _ G1) as (r & [-> | ->]).
    + eapply ty_step; [intros n; cbn [tparse app]; reflexivity|]. destruct (IH rest) as (N & A). exists N. exact A.
    + eapply ty_step; [intros n; cbn [tparse app]; reflexivity|]. destruct (IH rest) as (N & A). exists N. exact A.
  - intros rest Hr. eapply ty_step; [intros n; cbn [tparse app]; reflexivity|].
    rewrite <- app_assoc. eapply (ty_close TGSum _ t (Ch "}" :: rest) (fun t => t)); [|reflexivity]. apply (tclosed ts t (Ch "}") rest); auto.
  - intros rest Hr. eapply ty_step; [intros n; cbn [tparse app]; reflexivity|].
    rewrite <- app_assoc. eapply (ty_close TGSum _ t (Ch "|" :: rest) TBars); [|reflexivity]. apply (tclosed ts t (Ch "|") rest); auto.
  - intros rest Hr. eapply ty_step; [intros n; cbn [tparse app]; reflexivity|].
    rewrite <- app_assoc. cbn [app]. eapply (ty_close TGSum _ t (Cw "right" :: Ch "|" :: rest) TBars); [|reflexivity]. apply (tclosed ts t (Cw "right") (Ch "|" :: rest)); auto.
  - intros rest Hr. eapply ty_step; [intros n; cbn [tparse app]; reflexivity|]. rewrite <- app_assoc.
    eapply (ty_bind _ _ _ _ (fun n t r1 => let? (u, r2) := tparse n TGArg r1 in Some (TBin ODiv t u, r2))); [apply IH1|].
    eapply (ty_bind _ _ _ _ (fun n u r2 => Some (TBin ODiv t u, r2))); [apply IH2|apply ty_now].
  - intros rest Hr. eapply ty_step; [intros n; cbn [tparse app]; reflexivity|].
    eapply (ty_bind _ _ _ _ (fun n t r1 => Some (TCall "sqrt" t, r1))); [apply IH|apply ty_now].
  - intros rest Hr. destruct (tfun_word w Hf) as (_ & E1 & E2 & E3). assert (M : minus_one (ts ++ rest) = None).
    { destruct (br_first _ _ G1) as (r & [-> | ->]); [|reflexivity]. cbn [app minus_one]. destruct (r ++ rest) as [|[?|?] [|[?|?] [|[?|?] [|[?|?] ?]]]]; reflexivity. }
    eapply ty_step; [intros n; cbn [tparse app]; rewrite M, E1, E2, E3, Hf; reflexivity|].
    eapply (ty_bind _ _ _ _ (fun n t r1 => Some (TCall w t, r1))); [apply IH|apply ty_now].
  - intros rest Hr. destruct (tfun_word w Hf) as (_ & E1 & E2 & E3). eapply ty_step; [intros n; cbn [tparse app]; rewrite E1, E2, E3, Hf; reflexivity|].
    eapply (ty_bind _ _ _ _ (fun n t r1 => Some (TCall ("a" ++ w) t, r1))); [apply IH|apply ty_now].
  - intros rest Hr. apply f2 in Hr as [H1 H2]. eapply ty_step; [intros n; cbn [tparse]; reflexivity|]. eapply ty_bind; [now apply IH|]. rewrite no_hat by auto. apply ty_now.
  - intros rest Hr. rewrite <- app_assoc. eapply ty_step; [intros n; cbn [tparse]; reflexivity|]. eapply ty_bind; [now apply IH1|].
    cbn [app teat]. rewrite Ascii.eqb_refl. eapply (ty_bind _ _ _ _ (fun n u r' => Some (TBin OPow t u, r'))); [apply IH2|apply ty_now].
  - intros rest Hr. destruct (tfirst _ _ _ G1) as (k & r & -> & Hk).
    eapply ty_step; [|destruct (IH rest Hr) as (N & A); exists N; exact A]. intros n. cbn [tparse].
    assert (E : teat "-" ((k :: r) ++ rest) = None).
    { cbn [app teat]. destruct k as [a|w]; auto. destruct (Ascii.eqb_spec a "-"); auto. subst. exfalso. apply Hk; auto; discriminate. }
    rewrite E. reflexivity.
  - intros rest Hr. eapply ty_step; [intros n; cbn [tparse app teat]; rewrite Ascii.eqb_refl; reflexivity|].
    eapply (ty_bind _ _ _ _ (fun n t r' => Some (TNeg t, r'))); [now apply IH|apply ty_now].
  - intros rest t' r Hr Y. eapply ty_step; [intros n; cbn [tparse]; reflexivity|]. eapply (ty_bind _ _ _ _ (fun n t r => tparse n (TGProds t) r)); [now apply IH|exact Y].
  - intros rest t' r Hr Y. rewrite <- app_assoc. apply IH1; [reflexivity|].
    eapply ty_step; [intros n; cbn [tparse app teatw]; rewrite String.eqb_refl; reflexivity|].
    eapply (ty_bind _ _ _ _ (fun n u r => tparse n (TGProds (TBin OMul t u)) r)); [now apply IH2|exact Y].
  - intros rest t' r Hr Y. apply f3 in Hr as (H1 & H2 & H3). eapply ty_step; [intros n; cbn [tparse]; reflexivity|].
    eapply (ty_bind _ _ _ _ (fun n t r => tparse n (TGSums t) r)); [|exact Y]. apply IH; [unfold k2; rewrite first_or, H1, H2; reflexivity|]. now apply tprods_stop.
  - intros rest t' r Hr Y. apply f3 in Hr as (H1 & H2 & H3). rewrite <- app_assoc. apply IH1; [reflexivity|].
    eapply ty_step; [intros n; cbn [tparse app teat Ascii.eqb Bool.eqb]; reflexivity|].
    eapply (ty_bind _ _ _ _ (fun n u r => tparse n (TGSums (TBin OAdd t u)) r)); [|exact Y].
    apply IH2; [unfold k2; rewrite first_or, H1, H2; reflexivity|]. now apply tprods_stop.
  - intros rest t' r Hr Y. apply f3 in Hr as (H1 & H2 & H3). rewrite <- app_assoc. apply IH1; [reflexivity|].
    eapply ty_step; [intros n; cbn [tparse app teat Ascii.eqb Bool.eqb]; reflexivity|].
    eapply (ty_bind _ _ _ _ (fun n u r => tparse n (TGSums (TBin OSub t u)) r)); [|exact Y].
    apply IH2; [unfold k2; rewrite first_or, H1, H2; reflexivity|]. now apply tprods_stop.
Qed.
Theorem TG_reads s t : TG TSum (tlex s) t -> tex_reads s t.
Proof.
  intros H. apply TG_cont in H. cbn [tcont] in H. destruct (H [] t [] eq_refl (tsums_stop t [] eq_refl)) as (N & A). exists N.
  intros n Hn. specialize (A n Hn). now rewrite app_nil_r in A.
Qed.
