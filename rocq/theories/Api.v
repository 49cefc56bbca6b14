(** * Api: the remaining top-level helpers of src/simpy/expr.py: symbols, diff, comparisons of numbers. *)
From Verif Require Export Calc.
Local Open Scope string_scope.

(** [text.split(" ")] *)
Fixpoint split_sp (s : string) : list string :=
  match s with
  | EmptyString => [""]
  | String c r =>
      if Ascii.eqb c " "%char then "" :: split_sp r
      else match split_sp r with [] => [String c ""] | w :: ws => String c w :: ws end
  end.
(** Symbol(name), expr.py:779-787: an empty name fails the assertion *)
Definition api_symbol (s : string) : res expr := match s with "" => Raise AssertionError | _ => Ok (ESym s) end.
(** symbols(text), expr.py:2062-2065: one symbol, or the list of symbols *)
Definition api_symbols (text : string) : res (expr + list expr) :=
  l <- mapM api_symbol (split_sp text);;
  match l with
  | [s] => Ok (inl s)
  | _ => Ok (inr l)
  end.

(** diff(expr, var), expr.py:2068-2080.  Without a variable and with a number of symbols other than one, the function
    returns (does not raise) a ValueError object: [None]. *)
Definition api_diff (fk : fkern) (n : nat) (e : expr) (v : option string) : res (option expr) :=
  match v with
  | Some x => r <- diffE fk n x e;; Ok (Some r)
  | None =>
      match symbols e with
      | [x] => r <- diffE fk n x e;; Ok (Some r)
      | _ => Ok None
      end
  end.

(** [value] of the number classes that compare exactly: Fraction, or float("inf"), float("-inf") (expr.py:393-450, 502-517,
    655-690); pi and e compare by their double. *)
Inductive ext := Fin (q : Q) | Plus | Minus.
Definition num_value (e : expr) : option ext :=
  match e with
  | ERat q => Some (Fin q)
  | EPi => Some (Fin q_pi)
  | EE => Some (Fin q_e)
  | EInf => Some Plus
  | ENegInf => Some Minus
  | _ => None
  end.
Definition ext_leb (a b : ext) : bool :=
  match a, b with
  | Minus, _ => true
  | _, Plus => true
  | Fin p, Fin q => Qle_bool p q
  | _, _ => false
  end.
(** Num.__le__, __ge__, __lt__, __gt__ (expr.py:426-440) for a number on the left: False if the other operand is not a
    number.  A non-number on the left has no such method: with a number on the right Python tries the reflected method,
    with two non-numbers it raises TypeError. *)
Inductive cmp := Le | Lt | Ge | Gt.
Definition ext_cmp (o : cmp) (a b : ext) : bool :=
  match o with
  | Le => ext_leb a b
  | Ge => ext_leb b a
  | Lt => negb (ext_leb b a)
  | Gt => negb (ext_leb a b)
  end.
Definition mirror (o : cmp) : cmp := match o with Le => Ge | Ge => Le | Lt => Gt | Gt => Lt end.
Definition num_cmp (o : cmp) (a b : expr) : res bool :=
  match num_value a, num_value b with
  | Some x, Some y => Ok (ext_cmp o x y)
  | Some _, None => Ok false
  | None, Some _ => Ok false
  | None, None => Raise TypeError
  end.
(** Num.sign, expr.py:449-450; is_subtraction 442-443 *)
Definition num_sign (e : expr) : res Z :=
  match num_value e with
  | Some x => Ok (if negb (ext_leb (Fin 0) x) then -1 else 1)%Z
  | None => Raise AttributeError
  end.

(** Rat(a, b) for two ints, expr.py:502-517: Fraction(a, b) *)
Definition rat_of_ints (a b : Z) : res expr :=
  if (b =? 0)%Z then Raise ZeroDivisionError else Ok (rat (inject_Z a / inject_Z b)).
