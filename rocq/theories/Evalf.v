(** * Evalf: evalf() (src/simpy/expr.py), the numerical value of an expression.

    Python floats are kept abstract: [farith] is any arithmetic with the operations that evalf uses, so
    what is proved for every [farith] holds of binary64.  A floating point operation that raises
    (OverflowError, ZeroDivisionError, "math domain error") is a [Raise]; a negative base with a fractional
    exponent gives a complex number, on which the constructor Float (expr.py:469) fails with AssertionError. *)
From Verif Require Export Sem.
Close Scope R_scope.
Open Scope Z_scope.

Record farith := {
  F :> Type;
  f_of : Q -> res F;               (* float(Fraction) *)
  f_pi : F; f_e : F;               (* Pi.value, E.value: expr.py:632, 643 *)
  f_inf : F; f_ninf : F;           (* Infinity.value, NegInfinity.value: expr.py:655, 674 *)
  f_eqz : F -> Z -> bool;          (* float == int, float == Fraction *)
  f_eq : F -> F -> bool;
  f_add : F -> F -> F; f_mul : F -> F -> F;
  f_pow : F -> F -> res F;
  f_log : F -> res F;              (* math.log *)
  f_trig : trig -> F -> res F;     (* math.sin, cos, tan, asin, acos, atan *)
  f_abs : F -> F }.

Section Evalf.
Context (A : farith).

(** The numbers that evalf produces: a Float, Infinity or NegInfinity (all three are determined by their
    float value) or a Rat.  The constructors only make the Rats 0 and 1 here, so all Rats are integers. *)
Inductive num := NZ (z : Z) | NF (f : A).

(** [v == z] and [v == w], Num.__eq__, expr.py:422-424 *)
Definition n_is (v : num) (z : Z) : bool := match v with NZ k => (k =? z)%Z | NF f => f_eqz A f z end.
Definition n_eq (v w : num) : bool :=
  match v, w with
  | NZ k, w => n_is w k
  | v, NZ k => n_is v k
  | NF f, NF g => f_eq A f g
  end.
(** [float(v.value)] *)
Definition n_float (v : num) : res A := match v with NZ z => f_of A (inject_Z z) | NF f => Ok f end.
(** [v.value + w.value] and [v.value * w.value]: Fraction with Fraction is exact, otherwise the Fraction is
    converted *)
Definition n_op (oz : Z -> Z -> Z) (of : A -> A -> A) (v w : num) : res num :=
  match v, w with
  | NZ k, NZ l => Ok (NZ (oz k l))
  | _, _ => f <- n_float v;; g <- n_float w;; Ok (NF (of f g))
  end.
Definition n_add := n_op Z.add (f_add A).
Definition n_mul := n_op Z.mul (f_mul A).

(** accumulate, expr.py:713-730: sum() and reduce() from the left (from Python 3.12 on, sum() of floats
    compensates rounding errors; in exact arithmetic there is no difference). *)
Definition acc_sum (l : list num) : res num :=
  match l with [v] => Ok v | _ => foldM n_add l (NZ 0) end.
Definition acc_prod (l : list num) : res num :=
  match l with [v] => Ok v | _ => foldM n_mul l (NZ 1) end.

(** Sum.__new__ on numbers, expr.py:889-897, with _combine_like_terms_sum, 859-864: all terms are
    accumulated; an empty list of terms is Rat(0). *)
Definition e_sum (l : list num) : res num :=
  match l with
  | [] => Ok (NZ 0)
  | _ => v <- acc_sum l;; Ok (if n_is v 0 then NZ 0 else v)
  end.

(** Power.__new__ on numbers, expr.py:1400-1413, with _accumulate_power, 733-754 *)
Definition e_pow (b x : num) : res num :=
  if n_is x 0 then Ok (NZ 1)
  else if n_is x 1 then Ok b
  else if n_is b 1 then Ok (NZ 1)
  else match b, x with
       | NZ k, NZ n => if (n <? 0)%Z then Stop Unmodelled else Ok (NZ (k ^ n))
       | _, _ => f <- n_float b;; g <- n_float x;; h <- f_pow A f g;; Ok (NF h)
       end.

(** _combine_like_terms on numbers, expr.py:1083-1138: equal factors become one power.  [fuel] is the
    number of terms. *)
Fixpoint groups (fuel : nat) (l : list num) : res (list num) :=
  match fuel, l with
  | S k, v :: r =>
      let same := filter (fun w => n_eq w v) r in
      let rest := filter (fun w => negb (n_eq w v)) r in
      t <- match same with
           | [] => Ok v
           | _ => e_pow v (NZ (Z.of_nat (S (List.length same))))
           end;;
      ts <- groups k rest;; Ok (t :: ts)
  | _, _ => Ok []
  end.
(** Prod.__new__ on numbers, expr.py:1155-1163, with the end of _combine_like_terms, 1131-1138 *)
Definition e_prod (l : list num) : res num :=
  g <- groups (List.length l) l;;
  match g with
  | [] => Ok (NZ 1)
  | _ => c <- acc_prod g;; Ok (if n_is c 0 then c else if n_is c 1 then NZ 1 else c)
  end.

(** evalf(subs), expr.py:220-225, and the methods _evalf: Num 415-416, Associative 383-384, Symbol 796-797
    (calls super()._evalf() without the argument: TypeError), Any_ regex.py:48-49, Power 1489-1490, log
    1615-1618 (the base is evaluated but not used), TrigFunction 1802-1806, Abs 2043-2044 with 2027-2028.
    sin, cos, tan and the inverse functions have builtin functions as class attribute _func (1825 .. 1998);
    those of csc, sec and cot are lambdas (1931, 1944, 1958), so self._func(value) passes self as well:
    TypeError. *)
Fixpoint evalf (subs : list (string * expr)) (e : expr) : res num :=
  let fix all (l : list expr) : res (list num) :=
    match l with [] => Ok [] | t :: r => v <- evalf subs t;; vs <- all r;; Ok (v :: vs) end in
  match e with
  | ERat q => f <- f_of A q;; Ok (NF f)
  | EPi => Ok (NF (f_pi A))
  | EE => Ok (NF (f_e A))
  | EInf => Ok (NF (f_inf A))
  | ENegInf => Ok (NF (f_ninf A))
  | ESym _ => Raise TypeError
  | EAny _ => Raise NotImplementedError
  | ESum ts => l <- all ts;; e_sum l
  | EProd ts => l <- all ts;; e_prod l
  | EPow b x => v <- evalf subs b;; w <- evalf subs x;; e_pow v w
  | ELog i b =>
      v <- evalf subs i;; w <- evalf subs b;; f <- n_float v;; g <- f_log A f;; Ok (NF g)
  | ETrig t i =>
      v <- evalf subs i;;
      match t with
      | Csc | Sec | Cot => Raise TypeError
      | _ => f <- n_float v;; g <- f_trig A t f;; Ok (NF g)
      end
  | EAbs i =>
      v <- evalf subs i;;
      Ok (match v with NZ z => NZ (Z.abs z) | NF f => NF (f_abs A f) end)
  end.
Lemma evalf_sum s ts : evalf s (ESum ts) = (l <- mapM (evalf s) ts;; e_sum l).
Proof. cbn [evalf]. f_equal. induction ts as [|t r IH]; [reflexivity|]. cbn [mapM]. now rewrite IH. Qed.
Lemma evalf_prod s ts : evalf s (EProd ts) = (l <- mapM (evalf s) ts;; e_prod l).
Proof. cbn [evalf]. f_equal. induction ts as [|t r IH]; [reflexivity|]. cbn [mapM]. now rewrite IH. Qed.
End Evalf.
Arguments NZ {A}. Arguments NF {A}.
