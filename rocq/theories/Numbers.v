(** * Numbers: the remaining methods of Rat (expr.py:594-626). *)
From Verif Require Export Kernel.

(** Rat.__floordiv__, expr.py:594-598 (Fraction // Fraction).  A non-Rat right operand gives
    NotImplemented, i.e. TypeError. *)
Definition rat_floordiv (a b : expr) : res expr :=
  match a, b with
  | ERat p, ERat q => if qis0 q then Raise ZeroDivisionError else Ok (ratz (Qfloor (p / q)))
  | _, _ => Raise TypeError
  end.
(** Rat.__mod__, expr.py:610-615 (Fraction % Fraction) *)
Definition rat_mod (a b : expr) : res expr :=
  match a, b with
  | ERat p, ERat q => if qis0 q then Raise ZeroDivisionError else Ok (rat (qmod p q))
  | _, _ => Raise TypeError
  end.
(** Rat.reciprocal, expr.py:607-608: Fraction(denominator, numerator) *)
Definition rat_reciprocal (a : expr) : res expr :=
  match a with
  | ERat p => if qis0 p then Raise ZeroDivisionError else Ok (rat (inject_Z (denom p) / inject_Z (numer p)))
  | _ => Raise AttributeError
  end.
