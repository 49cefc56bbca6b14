(** * Calc: substitution and differentiation.  Models the methods [subs] and [diff] of
    src/simpy/expr.py and src/simpy/regex.py. *)
From Verif Require Export Funcs FMono.

Fixpoint assoc {A} (s : string) (m : list (string * A)) : option A :=
  match m with
  | [] => None
  | (t, v) :: r => if String.eqb t s then Some v else assoc s r
  end.

Section Calc.
Context (fk : fkern).

(** subs: Num 411-413, Symbol 792-794, Sum 925-927, Prod 1320-1322, Power 1484-1486,
    SingleFunc 1532-1535, log 1566-1570; Any_ regex.py:45-46.  [m] is the dict, names distinct. *)
Fixpoint subs (m : list (string * expr)) (e : expr) : res expr :=
  let fix go (l : list expr) : res (list expr) :=
    match l with
    | [] => Ok []
    | t :: r => t' <- subs m t;; r' <- go r;; Ok (t' :: r')
    end in
  match e with
  | ERat _ | EPi | EE | EInf | ENegInf => Ok e
  | ESym s => Ok (match assoc s m with Some v => v | None => e end)
  | EAny _ => Raise NotImplementedError
  | ESum ts => ts' <- go ts;; k_sum fk ts'
  | EProd ts => ts' <- go ts;; k_prod fk ts'
  | EPow b x => b' <- subs m b;; x' <- subs m x;; k_pow fk b' x'
  | ELog i b => i' <- subs m i;; b' <- subs m b;; k_log fk i' b'
  | ETrig f i => i' <- subs m i;; k_trig fk f i'
  | EAbs i => i' <- subs m i;; k_abs fk i'
  end.

(** [Prod([diff(e)] + [t for t in terms if t is not e]) for e in terms], expr.py:1324-1325.
    [t is not e] compares object identity: the model assumes that no object occurs twice in one
    product, so exactly the factor at that position is left out. *)
Fixpoint diff_prod (d : expr -> res expr) (pre l : list expr) : res (list expr) :=
  match l with
  | [] => Ok []
  | t :: r =>
      t' <- d t;; p <- k_prod fk (t' :: pre ++ r);;
      ps <- diff_prod d (pre ++ [t]) r;; Ok (p :: ps)
  end.

Definition is_e (b : expr) : bool := match b with EE => true | _ => false end.

(** diff: Num 405-406, Symbol 799-800, Sum 929-930, Prod 1324-1325, Power 1495-1504, log
    1612-1613, sin 1852, cos 1891, tan 1925, csc 1938, sec 1951, cot 1965, asin 1974, acos 1987,
    atan 2000, Abs 2039-2041; Any_ regex.py:54-55.  csc and cot differentiate a freshly built
    expression, hence the fuel.  In strict mode differentiating a logarithm to a base other than
    e, or an absolute value the oracle does not accept, stops (see C13). *)
Fixpoint diffE (n : nat) (v : string) (e : expr) {struct n} : res expr :=
  match n with
  | O => Stop OutOfFuel
  | S n' =>
    let d := diffE n' v in
    match e with
    | ERat _ | EPi | EE | EInf | ENegInf => Ok (ERat 0)
    | ESym s => Ok (if String.eqb s v then ERat 1 else ERat 0)
    | EAny _ => Raise NotImplementedError
    | ESum ts => ts' <- mapM d ts;; k_sum fk ts'
    | EProd ts => ps <- diff_prod d [] ts;; k_sum fk ps
    | EPow b x =>
        if negb (contains v x) then
          x1 <- op_sub fk x (ERat 1);; p <- op_pow fk b x1;; m <- op_mul fk x p;;
          b' <- d b;; op_mul fk m b'
        else if negb (contains v b) then
          l <- k_log fk b EE;; m <- op_mul fk l e;; x' <- d x;; op_mul fk m x'
        else Raise NotImplementedError
    | ELog i b =>
        guard (negb (k_strict fk) || is_e b || negb (contains v e))
          (i' <- d i;; op_div fk i' i)
    | ETrig Sin i => f <- k_trig fk Cos i;; i' <- d i;; op_mul fk f i'
    | ETrig Cos i => f <- k_trig fk Sin i;; g <- op_neg fk f;; i' <- d i;; op_mul fk g i'
    | ETrig Tan i => f <- k_trig fk Sec i;; g <- op_pow fk f (ERat 2);; i' <- d i;; op_mul fk g i'
    | ETrig Csc i => f <- k_trig fk Sin i;; g <- op_div fk (ERat 1) f;; d g
    | ETrig Sec i =>
        f <- k_trig fk Sec i;; g <- k_trig fk Tan i;; m <- op_mul fk f g;;
        i' <- d i;; op_mul fk m i'
    | ETrig Cot i => f <- k_trig fk Tan i;; g <- op_div fk (ERat 1) f;; d g
    | ETrig Asin i =>
        q <- op_pow fk i (ERat 2);; r <- op_sub fk (ERat 1) q;; s <- sqrtE fk r;;
        f <- op_div fk (ERat 1) s;; i' <- d i;; op_mul fk f i'
    | ETrig Acos i =>
        q <- op_pow fk i (ERat 2);; r <- op_sub fk (ERat 1) q;; s <- sqrtE fk r;;
        f <- op_div fk (ERat (-1)) s;; i' <- d i;; op_mul fk f i'
    | ETrig Atan i =>
        q <- op_pow fk i (ERat 2);; r <- op_add fk (ERat 1) q;;
        f <- op_div fk (ERat 1) r;; i' <- d i;; op_mul fk f i'
    | EAbs i => guard (negb (k_strict fk) || negb (contains v i) || k_node fk (EAbs i)) (d i)
    end
  end.
End Calc.

(** ** Monotonicity *)
#[export] Hint Resolve sqrtE_mono : mono.

Section CalcMono.
Context (f1 f2 : fkern) (HF : fle f1 f2).

Lemma subs_mono m e : rle (subs f1 m e) (subs f2 m e).
Proof.
  induction e as [q| | | | | | |ts IH|ts IH|b x IHb IHx|i b IHi IHb|f i IHi|i IHi] using expr_ind';
    cbn [subs]; mono.
  - induction IH as [|t l Ht Hl IHl]; mono.
  - induction IH as [|t l Ht Hl IHl]; mono.
Qed.

Lemma diff_prod_mono d1 d2 l : (forall e, rle (d1 e) (d2 e)) ->
  forall pre, rle (diff_prod f1 d1 pre l) (diff_prod f2 d2 pre l).
Proof. intros Hd. induction l as [|t l IH]; intros pre; cbn [diff_prod]; mono. Qed.

Lemma negb_strict_mono b1 b2 : (b1 = true -> b2 = true) ->
  negb (k_strict f1) || b1 = true -> negb (k_strict f2) || b2 = true.
Proof.
  intros H. destruct (k_strict f2) eqn:E; simpl; auto. rewrite (fle_strict _ _ HF E). auto.
Qed.

Lemma diffE_mono n : forall m v e, (n <= m)%nat -> rle (diffE f1 n v e) (diffE f2 m v e).
Proof.
  induction n as [|n IH]; intros m v e H; [apply rle_stop|]. destruct m as [|m]; [lia|].
  assert (H' : (n <= m)%nat) by lia.
  pose proof (diff_prod_mono (diffE f1 n v) (diffE f2 m v)) as HP.
  cbn [diffE]. destruct e; try (mono; fail).
  - apply guard_mono; [|mono]. rewrite <- !orb_assoc. now apply negb_strict_mono.
  - apply guard_mono; [|mono]. rewrite <- !orb_assoc. apply negb_strict_mono.
    intros Hb. apply orb_prop in Hb as [->|Hb]; auto. rewrite (fle_node _ _ HF _ Hb). apply orb_true_r.
Qed.
End CalcMono.
