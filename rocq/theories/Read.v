(** * Read: a reader for printed formulas (for C75).

    This file does not depend on the printer.  It says how a formula in the usual notation is read:
    [+] and [-] bind weaker than [*] and [/], these weaker than unary minus, this weaker than [^];
    [+ - * /] group to the left, [^] to the right (Python's grammar with [^] for [**]); function
    names are followed by a parenthesised argument; bars are absolute value.  Blanks separate words
    and are otherwise ignored. *)
From Coquelicot Require Import Coquelicot.
From Coq Require Import DecimalString DecimalZ.
From Verif Require Import Base Expr Kernel Sem.
Local Open Scope nat_scope.

(** ** Words and marks *)
Inductive tok := Wd (w : string) | Mk (a : ascii).
Definition between (lo hi : nat) (a : ascii) : bool := Nat.leb lo (nat_of_ascii a) && Nat.leb (nat_of_ascii a) hi.
(** letters, digits, underscore *)
Definition idchar (a : ascii) : bool := between 65 90 a || between 97 122 a || between 48 57 a || Ascii.eqb a "_".
Definition flush (w : string) : list tok := match w with ""%string => [] | _ => [Wd w] end.
Definition mark (a : ascii) : list tok := if Ascii.eqb a " " then [] else [Mk a].
Fixpoint lexw (w : string) (s : string) : list tok :=
  match s with
  | ""%string => flush w
  | String a r => if idchar a then lexw (w ++ String a "") r else flush w ++ mark a ++ lexw "" r
  end.
Definition lex (s : string) : list tok := lexw "" s.

(** ** Syntax trees and their value *)
Inductive op := OAdd | OSub | OMul | ODiv | OPow.
Inductive tree :=
| TNum (z : Z) | TName (s : string) | TNeg (t : tree) | TBin (o : op) (t u : tree)
| TCall (f : string) (t : tree) | TBars (t : tree).

Definition fun_table : list (string * (R -> R)) :=
  [("sqrt", sqrt); ("ln", ln); ("sin", sin); ("cos", cos); ("tan", tan); ("csc", fun v => / sin v);
   ("sec", fun v => / cos v); ("cot", fun v => cos v / sin v); ("asin", asin); ("acos", acos); ("atan", atan)]%string%R.
Definition is_fun (w : string) : bool := existsb (fun p => String.eqb w (fst p)) fun_table.
Definition apply_fun (f : string) (v : R) : R :=
  match find (fun p => String.eqb f (fst p)) fun_table with Some p => snd p v | None => 0%R end.
Definition apply_op (o : op) (a b : R) : R :=
  match o with OAdd => a + b | OSub => a - b | OMul => a * b | ODiv => a / b | OPow => rpow a b end%R.
Fixpoint tval (rho : env) (t : tree) : R :=
  match t with
  | TNum z => IZR z
  | TName s => if String.eqb s "pi" then PI else if String.eqb s "e" then exp 1 else rho s
  | TNeg t => - tval rho t
  | TBin o t u => apply_op o (tval rho t) (tval rho u)
  | TCall f t => apply_fun f (tval rho t)
  | TBars t => Rabs (tval rho t)
  end%R.

(** ** The reader *)
Definition eat (a : ascii) (ts : list tok) : option (list tok) :=
  match ts with Mk b :: r => if Ascii.eqb b a then Some r else None | _ => None end.
(** what is looked for: a sum (or the rest of one), a product (or the rest of one), ... *)
Inductive goal := GSum | GSums (t : tree) | GProd | GProds (t : tree) | GUnary | GPow | GAtom.
Notation "'let?' ( t , r ) ':=' e 'in' f" := (match e with Some (t, r) => f | None => None end) (at level 200, t name, r name, e at level 100, f at level 200).
Fixpoint parse (n : nat) (g : goal) (ts : list tok) : option (tree * list tok) :=
  match n with
  | O => None
  | S n =>
      match g with
      | GSum => let? (t, r) := parse n GProd ts in parse n (GSums t) r
      | GSums t =>
          match eat "+" ts with
          | Some r => let? (u, r') := parse n GProd r in parse n (GSums (TBin OAdd t u)) r'
          | None =>
              match eat "-" ts with
              | Some r => let? (u, r') := parse n GProd r in parse n (GSums (TBin OSub t u)) r'
              | None => Some (t, ts)
              end
          end
      | GProd => let? (t, r) := parse n GUnary ts in parse n (GProds t) r
      | GProds t =>
          match eat "*" ts with
          | Some r => let? (u, r') := parse n GUnary r in parse n (GProds (TBin OMul t u)) r'
          | None =>
              match eat "/" ts with
              | Some r => let? (u, r') := parse n GUnary r in parse n (GProds (TBin ODiv t u)) r'
              | None => Some (t, ts)
              end
          end
      | GUnary =>
          match eat "-" ts with
          | Some r => let? (t, r') := parse n GUnary r in Some (TNeg t, r')
          | None => parse n GPow ts
          end
      | GPow =>
          let? (t, r) := parse n GAtom ts in
          match eat "^" r with
          | Some r1 => let? (u, r') := parse n GUnary r1 in Some (TBin OPow t u, r')
          | None => Some (t, r)
          end
      | GAtom =>
          match ts with
          | Wd w :: r =>
              if is_fun w then
                match eat "(" r with
                | Some r1 => let? (t, r2) := parse n GSum r1 in
                             match eat ")" r2 with Some r3 => Some (TCall w t, r3) | None => None end
                | None => None
                end
              else match NilZero.uint_of_string w with
                   | Some u => Some (TNum (Z.of_uint u), r)
                   | None => Some (TName w, r)
                   end
          | _ =>
              match eat "(" ts with
              | Some r => let? (t, r2) := parse n GSum r in
                          match eat ")" r2 with Some r3 => Some (t, r3) | None => None end
              | None =>
                  match eat "|" ts with
                  | Some r => let? (t, r2) := parse n GSum r in
                              match eat "|" r2 with Some r3 => Some (TBars t, r3) | None => None end
                  | None => None
                  end
              end
          end
      end
  end.
(** the text [s] is read as the tree [t] *)
Definition reads (s : string) (t : tree) : Prop := exists N, forall n, N <= n -> parse n GSum (lex s) = Some (t, []).
(** there is at most one reading *)
Lemma reads_unique s t u : reads s t -> reads s u -> t = u.
Proof. intros (N & A) (M & B). specialize (A (N + M) ltac:(lia)). specialize (B (N + M) ltac:(lia)). congruence. Qed.

(** ** Lexing concatenations *)
Lemma lexw_app w s a r : idchar a = false -> lexw w (s ++ String a r) = lexw w s ++ lex (String a r).
Proof.
  intros Ha. revert w. induction s as [|b s IH]; intros w.
  - unfold lex. cbn [String.append lexw flush app]. now rewrite Ha.
  - cbn [String.append lexw]. destruct (idchar b); [apply IH|]. rewrite IH. now rewrite <- !app_assoc.
Qed.
Lemma lex_app s a r : idchar a = false -> lex (s ++ String a r) = lex s ++ lex (String a r).
Proof. apply lexw_app. Qed.
Lemma lex_mark a r : idchar a = false -> lex (String a r) = mark a ++ lex r.
Proof. intros H. unfold lex. cbn [lexw flush app]. now rewrite H. Qed.
Fixpoint all_id (s : string) : bool := match s with ""%string => true | String a r => idchar a && all_id r end.
Lemma str_app_assoc a b d : ((a ++ b) ++ d = a ++ (b ++ d))%string.
Proof. induction a as [|x a IH]; simpl; congruence. Qed.
Lemma str_app_nil a : (a ++ "" = a)%string.
Proof. induction a as [|x a IH]; simpl; congruence. Qed.
Lemma lexw_id s : forall w, all_id s = true -> lexw w s = flush (w ++ s).
Proof.
  induction s as [|a s IH]; intros w H; cbn [lexw all_id] in *; [now rewrite str_app_nil|].
  apply andb_prop in H as [A B]. rewrite A, IH by auto. now rewrite str_app_assoc.
Qed.
Lemma lex_id s : all_id s = true -> s <> ""%string -> lex s = [Wd s].
Proof. intros H N. unfold lex. rewrite lexw_id by auto. cbn [String.append]. destruct s; [congruence|reflexivity]. Qed.

(** ** Grammar *)
Inductive level := LAtom | LPow | LUnary | LProd | LSum.
Inductive G : level -> list tok -> tree -> Prop :=
| g_num w u : is_fun w = false -> NilZero.uint_of_string w = Some u -> G LAtom [Wd w] (TNum (Z.of_uint u))
| g_name w : is_fun w = false -> NilZero.uint_of_string w = None -> G LAtom [Wd w] (TName w)
| g_par ts t : G LSum ts t -> G LAtom (Mk "(" :: ts ++ [Mk ")"]) t
| g_bars ts t : G LSum ts t -> G LAtom (Mk "|" :: ts ++ [Mk "|"]) (TBars t)
| g_call w ts t : is_fun w = true -> G LSum ts t -> G LAtom (Wd w :: Mk "(" :: ts ++ [Mk ")"]) (TCall w t)
| g_ap ts t : G LAtom ts t -> G LPow ts t
| g_pow ts t us u : G LAtom ts t -> G LUnary us u -> G LPow (ts ++ Mk "^" :: us) (TBin OPow t u)
| g_pu ts t : G LPow ts t -> G LUnary ts t
| g_neg ts t : G LUnary ts t -> G LUnary (Mk "-" :: ts) (TNeg t)
| g_um ts t : G LUnary ts t -> G LProd ts t
| g_mul ts t us u : G LProd ts t -> G LUnary us u -> G LProd (ts ++ Mk "*" :: us) (TBin OMul t u)
| g_div ts t us u : G LProd ts t -> G LUnary us u -> G LProd (ts ++ Mk "/" :: us) (TBin ODiv t u)
| g_ms ts t : G LProd ts t -> G LSum ts t
| g_add ts t us u : G LSum ts t -> G LProd us u -> G LSum (ts ++ Mk "+" :: us) (TBin OAdd t u)
| g_sub ts t us u : G LSum ts t -> G LProd us u -> G LSum (ts ++ Mk "-" :: us) (TBin OSub t u).

(** the reader finds what the grammar describes *)
Definition yields g ts t r := exists N, forall n, N <= n -> parse n g ts = Some (t, r).
Definition starts (l : list ascii) (ts : list tok) : bool :=
  match ts with Mk b :: _ => existsb (Ascii.eqb b) l | _ => false end.
Lemma eat_none a l ts : starts l ts = false -> In a l -> eat a ts = None.
Proof.
  intros H Ha. destruct ts as [|[w|b] r]; auto. cbn [starts eat] in *. destruct (Ascii.eqb b a) eqn:E; auto.
  exfalso. apply Bool.not_true_iff_false in H. apply H. apply existsb_exists. eauto.
Qed.
Lemma y_step g ts t r (f : nat -> option (tree * list tok)) :
  (forall n, parse (S n) g ts = f n) -> (exists N, forall n, N <= n -> f n = Some (t, r)) -> yields g ts t r.
Proof. intros E (N & H). exists (S N). intros [|n] Hn; [lia|]. rewrite E. apply H. lia. Qed.
Lemma y_bind g ts t r (f : nat -> tree -> list tok -> option (tree * list tok)) t' r' :
  yields g ts t r -> (exists N, forall n, N <= n -> f n t r = Some (t', r')) ->
  exists N, forall n, N <= n -> (let? (t, r) := parse n g ts in f n t r) = Some (t', r').
Proof. intros (N & A) (M & B). exists (N + M). intros n Hn. rewrite A by lia. apply B. lia. Qed.
Lemma y_now (t : tree) (r : list tok) : exists N, forall n : nat, N <= n -> Some (t, r) = Some (t, r).
Proof. exists 0. auto. Qed.
Lemma sums_stop t r : starts ["+"; "-"]%char r = false -> yields (GSums t) r t r.
Proof.
  intros H. eapply y_step; [intros n; cbn [parse]; rewrite !(eat_none _ _ _ H) by (simpl; auto); reflexivity|]. apply y_now.
Qed.
Lemma prods_stop t r : starts ["*"; "/"]%char r = false -> yields (GProds t) r t r.
Proof.
  intros H. eapply y_step; [intros n; cbn [parse]; rewrite !(eat_none _ _ _ H) by (simpl; auto); reflexivity|]. apply y_now.
Qed.
Lemma starts_mono l l' ts : incl l l' -> starts l' ts = false -> starts l ts = false.
Proof.
  intros Hi H. destruct ts as [|[w|b] r]; auto. cbn [starts] in *. apply Bool.not_true_iff_false in H. apply Bool.not_true_iff_false.
  intros E. apply H. apply existsb_exists in E as (x & A & B). apply existsb_exists. eauto.
Qed.
Lemma atom_first l ts t : G l ts t -> exists k r, ts = k :: r /\ (l = LAtom \/ l = LPow -> k <> Mk "-").
Proof.
  induction 1 as [| | | | |ts t G1 (k & r & -> & IH)|ts t us u G1 (k & r & -> & IH) G2 _|ts t G1 (k & r & -> & IH)|ts t G1 _|ts t G1 (k & r & -> & IH)
    |ts t us u G1 (k & r & -> & IH) G2 _|ts t us u G1 (k & r & -> & IH) G2 _|ts t G1 (k & r & -> & IH)
    |ts t us u G1 (k & r & -> & IH) G2 _|ts t us u G1 (k & r & -> & IH) G2 _]; eexists; eexists; (split; [reflexivity|]); try (intros; discriminate);
    try (intros [|]; discriminate); auto.
Qed.
Definition cont (l : level) (ts : list tok) (t : tree) : Prop :=
  match l with
  | LAtom => forall rest, yields GAtom (ts ++ rest) t rest
  | LPow => forall rest, starts ["^"]%char rest = false -> yields GPow (ts ++ rest) t rest
  | LUnary => forall rest, starts ["^"]%char rest = false -> yields GUnary (ts ++ rest) t rest
  | LProd => forall rest t' r, starts ["^"]%char rest = false -> yields (GProds t) rest t' r -> yields GProd (ts ++ rest) t' r
  | LSum => forall rest t' r, starts ["^"; "*"; "/"]%char rest = false -> yields (GSums t) rest t' r -> yields GSum (ts ++ rest) t' r
  end.
Lemma closed (ts : list tok) t (b : ascii) rest : In b [")"; "|"]%char -> cont LSum ts t -> yields GSum ((ts ++ [Mk b]) ++ rest) t (Mk b :: rest).
Proof.
  intros Hb H. rewrite <- app_assoc. apply H; [destruct Hb as [<-|[<-|[]]]; reflexivity|].
  apply sums_stop. destruct Hb as [<-|[<-|[]]]; reflexivity.
Qed.
Lemma G_cont l ts t : G l ts t -> cont l ts t.
Proof.
  induction 1 as [w u Hf Hu|w Hf Hu|ts t G1 IH|ts t G1 IH|w ts t Hf G1 IH|ts t G1 IH|ts t us u G1 IH1 G2 IH2|ts t G1 IH|ts t G1 IH|ts t G1 IH
    |ts t us u G1 IH1 G2 IH2|ts t us u G1 IH1 G2 IH2|ts t G1 IH|ts t us u G1 IH1 G2 IH2|ts t us u G1 IH1 G2 IH2]; cbn [cont].
  - intros rest. eapply y_step; [intros n; cbn [parse app]; rewrite Hf, Hu; reflexivity|apply y_now].
  - intros rest. eapply y_step; [intros n; cbn [parse app]; rewrite Hf, Hu; reflexivity|apply y_now].
  - intros rest. eapply y_step; [intros n; cbn [parse app eat Ascii.eqb Bool.eqb]; reflexivity|].
    eapply y_bind; [apply (closed ts t ")" rest); [simpl; auto|exact IH]|]. cbn [eat]. rewrite Ascii.eqb_refl. apply y_now.
  - intros rest. eapply y_step; [intros n; cbn [parse app eat Ascii.eqb Bool.eqb]; reflexivity|].
    eapply y_bind; [apply (closed ts t "|" rest); [simpl; auto|exact IH]|]. cbn [eat]. rewrite Ascii.eqb_refl. apply y_now.
  - intros rest. eapply y_step; [intros n; cbn [parse app eat Ascii.eqb Bool.eqb]; rewrite Hf; reflexivity|].
    eapply y_bind; [apply (closed ts t ")" rest); [simpl; auto|exact IH]|]. cbn [eat]. rewrite Ascii.eqb_refl. apply y_now.
  - intros rest Hr. eapply y_step; [intros n; cbn [parse]; reflexivity|]. eapply y_bind; [apply IH|].
    rewrite (eat_none _ _ _ Hr) by (simpl; auto). apply y_now.
  - intros rest Hr. rewrite <- app_assoc. eapply y_step; [intros n; cbn [parse]; reflexivity|]. eapply y_bind; [apply IH1|].
    cbn [eat app]. rewrite Ascii.eqb_refl. eapply (y_bind _ _ _ _ (fun n u r' => Some (TBin OPow t u, r'))); [now apply IH2|apply y_now].
  - intros rest Hr. destruct (atom_first _ _ _ G1) as (k & r & -> & Hk).
    eapply y_step; [|destruct (IH rest Hr) as (N & A); exists N; exact A]. intros n. cbn [parse].
    assert (E : eat "-" ((k :: r) ++ rest) = None).
    { cbn [app eat]. destruct k as [w|b]; auto. destruct (Ascii.eqb_spec b "-"); auto. subst. exfalso. apply Hk; auto. }
    rewrite E. reflexivity.
  - intros rest Hr. eapply y_step; [intros n; cbn [parse app eat]; rewrite Ascii.eqb_refl; reflexivity|].
    eapply (y_bind _ _ _ _ (fun n t r' => Some (TNeg t, r'))); [now apply IH|apply y_now].
  - intros rest t' r Hr Y. eapply y_step; [intros n; cbn [parse]; reflexivity|]. eapply (y_bind _ _ _ _ (fun n t r => parse n (GProds t) r)); [now apply IH|exact Y].
  - intros rest t' r Hr Y. rewrite <- app_assoc. apply IH1; [reflexivity|].
    eapply y_step; [intros n; cbn [parse app eat]; rewrite Ascii.eqb_refl; reflexivity|].
    eapply (y_bind _ _ _ _ (fun n u r => parse n (GProds (TBin OMul t u)) r)); [now apply IH2|exact Y].
  - intros rest t' r Hr Y. rewrite <- app_assoc. apply IH1; [reflexivity|].
    eapply y_step; [intros n; cbn [parse app eat Ascii.eqb Bool.eqb]; reflexivity|].
    eapply (y_bind _ _ _ _ (fun n u r => parse n (GProds (TBin ODiv t u)) r)); [now apply IH2|exact Y].
  - intros rest t' r Hr Y. eapply y_step; [intros n; cbn [parse]; reflexivity|]. eapply (y_bind _ _ _ _ (fun n t r => parse n (GSums t) r)); [|exact Y].
    apply IH; [eapply starts_mono; [|exact Hr]; intros x; simpl; tauto|]. apply prods_stop. eapply starts_mono; [|exact Hr]; intros x; simpl; tauto.
  - intros rest t' r Hr Y. rewrite <- app_assoc. apply IH1; [reflexivity|].
    eapply y_step; [intros n; cbn [parse app eat]; rewrite Ascii.eqb_refl; reflexivity|].
    eapply (y_bind _ _ _ _ (fun n u r => parse n (GSums (TBin OAdd t u)) r)); [|exact Y].
    apply IH2; [eapply starts_mono; [|exact Hr]; intros x; simpl; tauto|]. apply prods_stop. eapply starts_mono; [|exact Hr]; intros x; simpl; tauto.
  - intros rest t' r Hr Y. rewrite <- app_assoc. apply IH1; [reflexivity|].
    eapply y_step; [intros n; cbn [parse app eat Ascii.eqb Bool.eqb]; reflexivity|].
    eapply (y_bind _ _ _ _ (fun n u r => parse n (GSums (TBin OSub t u)) r)); [|exact Y].
    apply IH2; [eapply starts_mono; [|exact Hr]; intros x; simpl; tauto|]. apply prods_stop. eapply starts_mono; [|exact Hr]; intros x; simpl; tauto.
Qed.
Theorem G_reads s t : G LSum (lex s) t -> reads s t.
Proof.
  intros H. apply G_cont in H. cbn [cont] in H. destruct (H [] t [] eq_refl (sums_stop t [] eq_refl)) as (N & A). exists N.
  intros n Hn. specialize (A n Hn). now rewrite app_nil_r in A.
Qed.
(** levels contain each other *)
Lemma g_up l ts t : G l ts t -> G LSum ts t.
Proof. destruct l; intros H; auto using g_ap, g_pu, g_um, g_ms. Qed.
Lemma g_uprod l ts t : G l ts t -> l <> LSum -> G LProd ts t.
Proof. destruct l; intros H N; auto using g_ap, g_pu, g_um; congruence. Qed.
(** a minus in front of a product *)
Lemma g_minus ts t : G LProd ts t -> exists t', G LProd (Mk "-" :: ts) t' /\ forall rho, (tval rho t' = - tval rho t)%R.
Proof.
  intros H. remember LProd as l eqn:E. induction H; try discriminate.
  - exists (TNeg t). split; [now apply g_um, g_neg|reflexivity].
  - destruct IHG1 as (t' & A & V); auto. exists (TBin OMul t' u). split; [exact (g_mul _ _ _ _ A H0)|]. intros rho. simpl. rewrite V. lra.
  - destruct IHG1 as (t' & A & V); auto. exists (TBin ODiv t' u). split; [exact (g_div _ _ _ _ A H0)|]. intros rho. simpl. rewrite V. unfold Rdiv. lra.
Qed.
