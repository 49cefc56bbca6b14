(** * Expand: expandable() and expand() (src/simpy/expr.py), with numerator_denominator. *)
From Verif Require Export Calc Combi.

Definition one_constb (ts : list expr) : bool := Nat.leb (List.length (filter is_acc ts)) 1.

(** itertools.product of lists. *)
Fixpoint cart {A} (ls : list (list A)) : list (list A) :=
  match ls with
  | [] => [[]]
  | l :: r => flat_map (fun x => map (cons x) (cart r)) l
  end.

Section Expand.
Context (fk : fkern).

(** Prod.numerator_denominator, expr.py:1236-1257 (see Kernel.numden).  Strict mode (not in
    /repo) stops when one of the two products would get more than one numeric factor, which
    cannot happen for a product built by the constructors. *)
Definition numdenF (ts : list expr) : res (expr * expr) :=
  '(n, d) <- numden_go fk ts;;
  guard (negb (k_strict fk) || (one_constb n && one_constb d))
    (ne <- prod_skip n;; de <- prod_skip d;; Ok (ne, de)).

(** Power._power_expandable, expr.py:1456-1462 *)
Definition power_expandable (b x : expr) : bool :=
  match x with
  | ERat q => qisint q && negb (Qeq_bool (Qabs q) 1) && is_sum b
  | _ => false
  end.

(** expandable(): Expr 187-190, 198-201; Prod 1269-1278; Power 1464-1465 *)
Fixpoint expandable (e : expr) : res bool :=
  let fix any (f : expr -> bool) (l : list expr) : res bool :=
    match l with
    | [] => Ok false
    | t :: r => if f t then Ok true else b <- expandable t;; if b : bool then Ok true else any f r
    end in
  match e with
  | ESum ts => any (fun _ => false) ts
  | EProd ts =>
      b <- any is_sum ts;;
      if b : bool then Ok true
      else '(_, d) <- numdenF ts;;
           Ok (match d with EProd ds => existsb is_sum ds | _ => false end)
  | EPow b x =>
      if power_expandable b x then Ok true
      else b' <- expandable b;; if b' : bool then Ok true else expandable x
  | ELog i b => i' <- expandable i;; if i' : bool then Ok true else expandable b
  | ETrig _ i | EAbs i => expandable i
  | _ => Ok false
  end.

(** Splits the expanded factors into sums (their term lists) and others, expr.py:1302-1307. *)
Fixpoint split_sums (l : list expr) : list (list expr) * list expr :=
  match l with
  | [] => ([], [])
  | ESum us :: r => let '(s, o) := split_sums r in (us :: s, o)
  | t :: r => let '(s, o) := split_sums r in (s, t :: o)
  end.

(** [[Power(t.base, -t.exponent) if isinstance(t, Power) else Power(t, -1) ..]], 1287-1290 *)
Definition inv_factor (t : expr) : res expr :=
  match t with
  | EPow b x => x' <- op_neg fk x;; k_pow fk b x'
  | _ => k_pow fk t (ERat (-1))
  end.

(** One summand of the multinomial expansion, expr.py:1480-1482. *)
Definition multi_term (ts : list expr) (n : Z) (p : list Z) : res expr :=
  ps <- mapM (fun tp => k_pow fk (fst tp) (ratz (snd tp))) (combine ts p);;
  c <- multinomial_coefficient p n;;
  match c with
  | inl m => k_prod fk (ratz m :: ps)
  | inr _ => Stop Unmodelled
  end.

(** expand(): Expr 204-208, Sum 921-923, Prod 1280-1318, Power 1467-1482, SingleFunc 1537-1539,
    log 1572-1574 (which drops the base: strict mode stops there unless the base is e). *)
Fixpoint expandE (n : nat) (e : expr) {struct n} : res expr :=
  match n with
  | O => Stop OutOfFuel
  | S n' =>
    let exp1 := fun t => b <- expandable t;; if b : bool then expandE n' t else Ok t in
    let checked := fun (r : res expr) =>
      b <- expandable e;; if b : bool then r else Raise AssertionError in
    match e with
    | ESum ts => checked (ts' <- mapM exp1 ts;; k_sum fk ts')
    | EProd ts => checked (
        '(num, den) <- numdenF ts;;
        den' <- exp1 den;;
        dts <- match den' with
               | EProd ds => mapM inv_factor ds
               | _ => d <- k_pow fk den' (ERat (-1));; Ok [d]
               end;;
        match num with
        | EProd ns =>
            ns' <- mapM exp1 ns;;
            let '(sums, other) := split_sums ns' in
            match sums with
            | [] => k_prod fk (other ++ dts)
            | _ => terms <- mapM (fun us => k_prod fk (other ++ us ++ dts)) (cart sums);;
                   k_sum fk terms
            end
        | _ =>
            num' <- exp1 num;;
            match num' with
            | ESum us => terms <- mapM (fun u => k_prod fk (u :: dts)) us;; k_sum fk terms
            | _ => k_prod fk (num' :: dts)
            end
        end)
    | EPow b x => checked (
        b' <- exp1 b;; x' <- exp1 x;;
        new <- k_pow fk b' x';;
        match new with
        | EPow (ESum us) (ERat q) =>
            if power_expandable (ESum us) (ERat q) then
              let m := Z.abs (numer q) in
              terms <- mapM (multi_term us m) (generate_permutations (List.length us) m);;
              s <- k_sum fk terms;;
              op_pow fk s (if qlt0 q then ERat (-1) else ERat 1)
            else Ok new
        | _ => Ok new
        end)
    | ELog i b =>
        x <- expandable i;;
        if x : bool then guard (negb (k_strict fk) || is_e b) (i' <- expandE n' i;; k_log fk i' EE)
        else Raise AssertionError
    | ETrig f i =>
        x <- expandable i;;
        if x : bool then i' <- expandE n' i;; k_trig fk f i' else Raise AssertionError
    | EAbs i =>
        x <- expandable i;;
        if x : bool then i' <- expandE n' i;; k_abs fk i' else Raise AssertionError
    | _ => Raise AssertionError
    end
  end.
End Expand.

(** ** Monotonicity *)
Section ExpandMono.
Context (f1 f2 : fkern) (HF : fle f1 f2).

Lemma nstrict_mono b : negb (k_strict f1) || b = true -> negb (k_strict f2) || b = true.
Proof. now apply negb_strict_mono. Qed.

Lemma numdenF_mono ts : rle (numdenF f1 ts) (numdenF f2 ts).
Proof.
  pose proof (numden_go_mono f1 f2 HF). unfold numdenF. mono.
  apply guard_mono; [apply nstrict_mono|mono].
Qed.
Lemma expandable_mono e : rle (expandable f1 e) (expandable f2 e).
Proof.
  pose proof numdenF_mono.
  assert (A : forall g ts, Forall (fun e => rle (expandable f1 e) (expandable f2 e)) ts ->
    rle ((fix any (f : expr -> bool) (l : list expr) : res bool :=
    match l with
    | [] => Ok false
    | t :: r => if f t then Ok true else b <- expandable f1 t;; if b : bool then Ok true else any f r
    end) g ts) ((fix any (f : expr -> bool) (l : list expr) : res bool :=
    match l with
    | [] => Ok false
    | t :: r => if f t then Ok true else b <- expandable f2 t;; if b : bool then Ok true else any f r
    end) g ts)).
  { intros g ts IH. induction IH as [|t l Ht Hl IHl]; mono. }
  induction e as [q| | | | | | |ts IH|ts IH|b x IHb IHx|i b IHi IHb|f i IHi|i IHi] using expr_ind';
    cbn [expandable]; try (mono; fail).
Qed.
Lemma inv_factor_mono t : rle (inv_factor f1 t) (inv_factor f2 t).
Proof. unfold inv_factor. mono. Qed.
Lemma multi_term_mono ts n p : rle (multi_term f1 ts n p) (multi_term f2 ts n p).
Proof. unfold multi_term. mono. Qed.

Lemma expandE_mono n : forall m e, (n <= m)%nat -> rle (expandE f1 n e) (expandE f2 m e).
Proof.
  induction n as [|n IH]; intros m e H; [apply rle_stop|]. destruct m as [|m]; [lia|].
  assert (H' : (n <= m)%nat) by lia.
  pose proof numdenF_mono. pose proof expandable_mono. pose proof inv_factor_mono.
  pose proof multi_term_mono.
  cbn [expandE]. destruct e; cbv beta zeta; try (mono; fail).
  mono. apply guard_mono; [apply nstrict_mono|mono].
Qed.
End ExpandMono.
