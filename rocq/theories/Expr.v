(** * Expr: the expression trees of simpy and their purely structural functions.

    Models src/simpy/expr.py (class definitions) and the structural part of
    src/simpy/regex.py.  Not represented: the classes Float and NaN (a run that would create
    one is [Stop Unmodelled]), the private flag [_strictly_positive] (always False at this
    commit: only assigned False, expr.py:127), the per-object caches. *)
From Verif Require Export Base.

(** Trig classes sin..cot, asin, acos, atan (expr.py:1823-2007). *)
Inductive trig : Type := Sin | Cos | Tan | Csc | Sec | Cot | Asin | Acos | Atan.

(** Expr subclasses: Rat 497, Pi 631, E 642, Infinity 655, NegInfinity 674, Symbol 780,
    Any_ (regex.py:15), Sum 869, Prod 1141, Power 1347, log 1550, TrigFunction 1657,
    Abs 2008.  A Rat holds a Python Fraction, i.e. a reduced [Q]; every model operation that
    creates a Rat reduces ([rat]). *)
Inductive expr : Type :=
| ERat (q : Q)
| EPi | EE | EInf | ENegInf
| ESym (s : string)
| EAny (k : string)
| ESum (ts : list expr)
| EProd (ts : list expr)
| EPow (b x : expr)
| ELog (i b : expr)
| ETrig (f : trig) (i : expr)
| EAbs (i : expr).

Section expr_ind.
  Context (P : expr -> Prop).
  Context (HRat : forall q, P (ERat q)) (HPi : P EPi) (HE : P EE)
          (HInf : P EInf) (HNInf : P ENegInf) (HSym : forall s, P (ESym s))
          (HAny : forall k, P (EAny k))
          (HSum : forall ts, Forall P ts -> P (ESum ts))
          (HProd : forall ts, Forall P ts -> P (EProd ts))
          (HPow : forall b x, P b -> P x -> P (EPow b x))
          (HLog : forall i b, P i -> P b -> P (ELog i b))
          (HTrig : forall f i, P i -> P (ETrig f i))
          (HAbs : forall i, P i -> P (EAbs i)).
  Fixpoint expr_ind' (e : expr) : P e :=
    let fix go (l : list expr) : Forall P l :=
      match l with
      | [] => Forall_nil P
      | a :: r => Forall_cons a (expr_ind' a) (go r)
      end in
    match e with
    | ERat q => HRat q | EPi => HPi | EE => HE | EInf => HInf | ENegInf => HNInf
    | ESym s => HSym s | EAny k => HAny k
    | ESum ts => HSum ts (go ts)
    | EProd ts => HProd ts (go ts)
    | EPow b x => HPow b x (expr_ind' b) (expr_ind' x)
    | ELog i b => HLog i b (expr_ind' i) (expr_ind' b)
    | ETrig f i => HTrig f i (expr_ind' i)
    | EAbs i => HAbs i (expr_ind' i)
    end.
End expr_ind.

(** ** Rationals: Python's Fraction. *)

(** [Rat(Fraction(..))]: a Fraction is always reduced (expr.py:502-517). *)
Definition rat (q : Q) : expr := ERat (Qred q).
Definition ratz (z : Z) : expr := ERat (inject_Z z).

Definition numer (q : Q) : Z := Qnum (Qred q).       (* Fraction.numerator *)
Definition denom (q : Q) : Z := Zpos (Qden (Qred q)). (* Fraction.denominator *)

Definition qis0 (q : Q) : bool := Qeq_bool q 0.
Definition qlt0 (q : Q) : bool := (Qnum q <? 0)%Z.
Definition qgt0 (q : Q) : bool := (0 <? Qnum q)%Z.
(** Rat.is_int, expr.py:617-619 *)
Definition qisint (q : Q) : bool := Z.eqb (denom q) 1.
(** Fraction.__eq__ on two Fractions compares numerator and denominator. *)
Definition qeqb (a b : Q) : bool := Z.eqb (Qnum a) (Qnum b) && Pos.eqb (Qden a) (Qden b).

Definition trig_eqb (f g : trig) : bool :=
  match f, g with
  | Sin, Sin | Cos, Cos | Tan, Tan | Csc, Csc | Sec, Sec | Cot, Cot
  | Asin, Asin | Acos, Acos | Atan, Atan => true
  | _, _ => false
  end.

(** The binary64 values of Pi.value and E.value (expr.py:632, 643) as exact fractions:
    884279719003555 / 2^48 and 6121026514868073 / 2^51. *)
Definition q_pi : Q := (884279719003555 # 281474976710656).
Definition q_e : Q := (6121026514868073 # 2251799813685248).

(** ** Equality: [a == b] on expressions.
    Num.__eq__ (expr.py:422-424) compares [.value] across number classes, Pi has the
    dataclass equality falling back to the reflected Num.__eq__, E.__eq__ (651-652) only
    accepts E, Symbol 802-803, Any_ regex.py:33-39; Sum, Prod, Power, log and the SingleFunc
    classes have dataclass equality: same class and equal fields. *)
Fixpoint eeqb (a b : expr) {struct a} : bool :=
  let fix eql (l m : list expr) {struct l} : bool :=
    match l, m with
    | [], [] => true
    | x :: l', y :: m' => eeqb x y && eql l' m'
    | _, _ => false
    end in
  match a, b with
  | ERat p, ERat q => qeqb p q
  | ERat p, EPi => qeqb p q_pi
  | EPi, ERat q => qeqb q q_pi
  | ERat p, EE => qeqb p q_e
  | EPi, EPi | EE, EE | EInf, EInf | ENegInf, ENegInf => true
  | ESym s, ESym t => String.eqb s t
  | EAny s, EAny t => String.eqb s t
  | ESum l, ESum m => eql l m
  | EProd l, EProd m => eql l m
  | EPow b1 x1, EPow b2 x2 => eeqb b1 b2 && eeqb x1 x2
  | ELog i1 b1, ELog i2 b2 => eeqb i1 i2 && eeqb b1 b2
  | ETrig f i, ETrig g j => trig_eqb f g && eeqb i j
  | EAbs i, EAbs j => eeqb i j
  | _, _ => false
  end.

(** [coin a b]: comparing [a] with [b] may meet one of the two coincidences between a
    rational and the binary64 value of pi / e.  (Not in the code: used by strict mode.) *)
Fixpoint coin (a b : expr) {struct a} : bool :=
  let fix coinl (l m : list expr) {struct l} : bool :=
    match l, m with
    | x :: l', y :: m' => coin x y || coinl l' m'
    | _, _ => false
    end in
  match a, b with
  | ERat p, EPi => qeqb p q_pi
  | EPi, ERat q => qeqb q q_pi
  | ERat p, EE => qeqb p q_e
  | ESum l, ESum m => coinl l m
  | EProd l, EProd m => coinl l m
  | EPow b1 x1, EPow b2 x2 => coin b1 b2 || coin x1 x2
  | ELog i1 b1, ELog i2 b2 => coin i1 i2 || coin b1 b2
  | ETrig _ i, ETrig _ j => coin i j
  | EAbs i, EAbs j => coin i j
  | _, _ => false
  end.

Fixpoint eeqbl (l m : list expr) : bool :=
  match l, m with
  | [], [] => true
  | x :: l', y :: m' => eeqb x y && eeqbl l' m'
  | _, _ => false
  end.
Fixpoint coinl (l m : list expr) : bool :=
  match l, m with
  | x :: l', y :: m' => coin x y || coinl l' m'
  | _, _ => false
  end.

(** [e == q] for a Python int / Rat literal [q] other than the two coincidences
    (literals in the code are small integers and 1/2). *)
Definition isq (e : expr) (q : Q) : bool :=
  match e with ERat p => Qeq_bool p q | _ => false end.

(** ** Class tests and accessors *)

(** isinstance(e, AccumulaTuple), expr.py:709-710 *)
Definition is_acc (e : expr) : bool :=
  match e with ERat _ | EInf | ENegInf => true | _ => false end.
(** isinstance(e, Num), expr.py:393 *)
Definition is_num (e : expr) : bool :=
  match e with ERat _ | EPi | EE | EInf | ENegInf => true | _ => false end.
Definition is_rat (e : expr) : bool := match e with ERat _ => true | _ => false end.
Definition is_sum (e : expr) : bool := match e with ESum _ => true | _ => false end.
Definition is_prod (e : expr) : bool := match e with EProd _ => true | _ => false end.
Definition is_pow (e : expr) : bool := match e with EPow _ _ => true | _ => false end.
Definition is_sym (e : expr) : bool := match e with ESym _ => true | _ => false end.

(** children(): expr.py:312-313, 408-409, 805-806, 1492-1493, 1521-1522, 1576-1577,
    regex.py:51-52 *)
Definition children (e : expr) : list expr :=
  match e with
  | ESum ts | EProd ts => ts
  | EPow b x => [b; x]
  | ELog i b => [i; b]
  | ETrig _ i | EAbs i => [i]
  | _ => []
  end.

(** Expr.contains, expr.py:231-233 *)
Fixpoint contains (v : string) (e : expr) : bool :=
  match e with
  | ESym s => String.eqb s v
  | ESum ts | EProd ts => existsb (contains v) ts
  | EPow b x => contains v b || contains v x
  | ELog i b => contains v i || contains v b
  | ETrig _ i | EAbs i => contains v i
  | _ => false
  end.

(** Expr.symbols as a list of names with repetitions removed, expr.py:244-252, 808-809.
    Python builds a set, so its order is unspecified; the model uses first-occurrence
    order and nothing proved depends on the order. *)
Fixpoint names (e : expr) : list string :=
  match e with
  | ESym s => [s]
  | ESum ts | EProd ts => flat_map names ts
  | EPow b x => names b ++ names x
  | ELog i b => names i ++ names b
  | ETrig _ i | EAbs i => names i
  | _ => []
  end.
Definition symbols (e : expr) : list string := nodup string_dec (names e).

(** len(e.symbols()) > 0 or len(get_anys(e)) > 0 : expr.py:244-252, regex.py:89-104 *)
Fixpoint has_symany (e : expr) : bool :=
  match e with
  | ESym _ | EAny _ => true
  | ESum ts | EProd ts => existsb has_symany ts
  | EPow b x => has_symany b || has_symany x
  | ELog i b => has_symany i || has_symany b
  | ETrig _ i | EAbs i => has_symany i
  | _ => false
  end.

(** general_contains / has(cls): regex.py:368-372, 384-387 and Expr.has, expr.py:235-238 *)
Fixpoint gcontains (p : expr -> bool) (e : expr) : bool :=
  p e ||
  match e with
  | ESum ts | EProd ts => existsb (gcontains p) ts
  | EPow b x => gcontains p b || gcontains p x
  | ELog i b => gcontains p i || gcontains p b
  | ETrig _ i | EAbs i => gcontains p i
  | _ => false
  end.
Definition is_pi (e : expr) : bool := match e with EPi => true | _ => false end.
Definition has_pi : expr -> bool := gcontains is_pi.
Definition has_pow : expr -> bool := gcontains is_pow.

(** general_count, regex.py:375-381 *)
Fixpoint gcount (p : expr -> bool) (e : expr) : nat :=
  if p e then 1%nat else
  match e with
  | ESum ts | EProd ts => list_sum (map (gcount p) ts)
  | EPow b x => (gcount p b + gcount p x)%nat
  | ELog i b => (gcount p i + gcount p b)%nat
  | ETrig _ i | EAbs i => gcount p i
  | _ => 0%nat
  end.
(** count_symbols, utils.py:47-51 *)
Definition count_symbols : expr -> nat := gcount is_sym.

(** is_subtraction: expr.py:266-269 (default), 442-444 (Num), 1028-1030 (Sum),
    1265-1267 (Prod; terms[0] of an empty list cannot occur), 1506-1509 (Power) *)
Fixpoint is_sub (e : expr) : bool :=
  match e with
  | ERat q => qlt0 q
  | ENegInf => true
  | EProd (ERat q :: _) => qlt0 q
  | ESum ts => forallb is_sub ts
  | _ => false
  end.

(** Associative._flatten_terms / _flatten (expr.py:292-310), class Sum and class Prod.
    Python also stores the flattened list back into the nested operand; the model is pure. *)
Fixpoint flat_sum1 (e : expr) : list expr :=
  match e with ESum ts => flat_map flat_sum1 ts | _ => [e] end.
Fixpoint flat_prod1 (e : expr) : list expr :=
  match e with EProd ts => flat_map flat_prod1 ts | _ => [e] end.
Definition flat_sum (ts : list expr) : list expr := flat_map flat_sum1 ts.
Definition flat_prod (ts : list expr) : list expr := flat_map flat_prod1 ts.

(** _deconstruct_prod, expr.py:1033-1061 *)
Definition decon_prod (e : expr) : list expr * list expr :=
  match e with
  | EProd ts =>
      let cs := filter is_acc ts in
      (match cs with [] => [ERat 1] | _ => cs end, filter (fun t => negb (is_acc t)) ts)
  | _ => ([ERat 1], [e])
  end.

(** deconstruct_power, expr.py:1064-1076 *)
Definition decon_pow (e : expr) : expr * expr :=
  match e with EPow b x => (b, x) | _ => (e, ERat 1) end.

(** [Prod(terms, skip_checks=True)] and [Sum(terms, skip_checks=True)]: __new__ 1148-1153 with
    __init__ 1178-1182; 881-886 with 903-910.  See [SelfInit] in Base.v. *)
Definition prod_skip (ts : list expr) : res expr :=
  match ts with
  | [] => Ok (ERat 1)
  | [EProd _] => Raise SelfInit
  | [t] => Ok t
  | _ => Ok (EProd ts)
  end.
Definition sum_skip (ts : list expr) : res expr :=
  match ts with
  | [] => Ok (ERat 0)
  | [ESum _] => Raise SelfInit
  | [t] => Ok t
  | _ => Ok (ESum ts)
  end.

(** remove_const_factor(expr, include_factor=True), expr.py:2082-2105 *)
Definition rcf (e : expr) : res (expr * expr) :=
  match e with
  | EProd ts =>
      s <- prod_skip (filter has_symany ts);;
      c <- prod_skip (filter (fun t => negb (has_symany t)) ts);;
      Ok (s, c)
  | _ => Ok (e, ERat 1)
  end.

(** _nesting_without_factor inside Associative._sort_terms, expr.py:317-336. *)
Definition max_list (l : list nat) : nat := fold_right Nat.max 0%nat l.
Fixpoint nwf (e : expr) : res nat :=
  let fix go (l : list expr) : res (list nat) :=
    match l with
    | [] => Ok []
    | t :: r => n <- nwf t;; ns <- go r;; Ok (n :: ns)
    end in
  let fix gosans (l : list expr) : res (list nat) :=
    match l with
    | [] => Ok []
    | t :: r => if has_symany t then n <- nwf t;; ns <- gosans r;; Ok (n :: ns) else gosans r
    end in
  match e with
  | ESym _ | EAny _ => Ok 1%nat
  | EProd ts =>
      _ <- rcf e;;
      ns <- gosans ts;;
      match ns with
      | [] => Ok 0%nat
      | [n] => Ok n
      | _ => Ok (S (max_list ns))
      end
  | ESum ts =>
      if has_symany e then ns <- go ts;; Ok (S (max_list ns)) else Ok 0%nat
  | EPow a b | ELog a b =>
      if has_symany e then m <- nwf a;; n <- nwf b;; Ok (S (Nat.max m n)) else Ok 0%nat
  | ETrig _ a | EAbs a =>
      if has_symany e then m <- nwf a;; Ok (S m) else Ok 0%nat
  | _ => Ok 0%nat
  end.

(** _symboless_nest, expr.py:338-341 *)
Fixpoint symboless_nest (e : expr) : nat :=
  match e with
  | ERat _ => 1%nat
  | ESum ts | EProd ts => (2 + max_list (map symboless_nest ts))%nat
  | EPow a b | ELog a b => (2 + Nat.max (symboless_nest a) (symboless_nest b))%nat
  | ETrig _ a | EAbs a => (2 + symboless_nest a)%nat
  | _ => 2%nat
  end.

(** _is_strictly_positive, expr.py:2047-2058.  Infinity/NegInfinity never ran
    Expr.__post_init__ (658-659, 677-678), so reading their flag raises AttributeError. *)
Fixpoint strictly_positive (e : expr) : res bool :=
  let fix all (l : list expr) : res bool :=
    match l with
    | [] => Ok true
    | t :: r => b <- strictly_positive t;; if b then all r else Ok false
    end in
  match e with
  | ESum ts | EProd ts => all ts
  | EPow b _ => strictly_positive b
  | ERat q => Ok (negb (qlt0 q))
  | EPi | EE => Ok true
  | EInf | ENegInf => Raise AttributeError
  | _ => Ok false
  end.

Definition is_inverse (f : trig) : bool :=
  match f with Asin | Acos | Atan => true | _ => false end.
(** TrigFunction.func, expr.py:1824, 1863, 1907, 1930, 1943, 1957, 1970, 1983, 1996 *)
Definition trig_func (f : trig) : trig :=
  match f with Asin => Sin | Acos => Cos | Atan => Tan | _ => f end.
(** reciprocal_class, expr.py:1827-1829, 1866-1868, 1911-1913, 1932, 1945, 1956 *)
Definition reciprocal_class (f : trig) : option trig :=
  match f with
  | Sin => Some Csc | Cos => Some Sec | Tan => Some Cot
  | Csc => Some Sin | Sec => Some Cos | Cot => Some Tan
  | _ => None
  end.
Definition trig_label (f : trig) : string :=
  match f with
  | Sin => "sin" | Cos => "cos" | Tan => "tan" | Csc => "csc" | Sec => "sec" | Cot => "cot"
  | Asin => "asin" | Acos => "acos" | Atan => "atan"
  end%string.

(** Every expression equals itself and meets no coincidence. *)
Lemma coin_refl e : coin e e = false.
Proof.
  induction e as [q| | | | |s| |ts IH|ts IH|b x IHb IHx|i b IHi IHb|f i IHi|i IHi] using expr_ind'; simpl; auto.
  - induction IH as [|t l Ht _ IH]; auto. simpl. now rewrite Ht, IH.
  - induction IH as [|t l Ht _ IH]; auto. simpl. now rewrite Ht, IH.
  - now rewrite IHb, IHx.
  - now rewrite IHi, IHb.
Qed.
Lemma eeqb_refl e : eeqb e e = true.
Proof.
  induction e as [q| | | | |s| |ts IH|ts IH|b x IHb IHx|i b IHi IHb|f i IHi|i IHi] using expr_ind'; simpl; auto.
  - unfold qeqb. now rewrite Z.eqb_refl, Pos.eqb_refl.
  - apply String.eqb_refl.
  - apply String.eqb_refl.
  - induction IH as [|t l Ht _ IH]; auto. simpl. now rewrite Ht, IH.
  - induction IH as [|t l Ht _ IH]; auto. simpl. now rewrite Ht, IH.
  - now rewrite IHb, IHx.
  - now rewrite IHi, IHb.
  - rewrite IHi. now destruct f.
Qed.
