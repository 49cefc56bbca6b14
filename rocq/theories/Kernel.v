(** * Kernel: the smart constructors Sum, Prod, Power, Abs, printing and term sorting.

    Models src/simpy/expr.py.  The Python functions are mutually recursive (Sum sorts with
    repr, repr builds Prods, Prod builds Powers, ...).  [build c k] gives every function one
    level deep, calling [k] where Python calls a constructor or repr again; [K c n] iterates it.
    All recursion of the model that Python performs through constructors therefore is bounded
    by the fuel [n]; [Stop OutOfFuel] is the only effect of too little of it. *)
From Verif Require Export Expr.
From Coq Require Import DecimalString.

(** Run-time parameters of the model (not part of /repo).
    [fpow a x] models the float computation [a ** x] of expr.py:748-749 for a positive int [a]
    and a positive non-integer Fraction [x] together with the test [int(v.real) == v]: [Some m]
    when the float power is the integer [m].  OverflowError of huge ints is not modelled.
    [strict]: stop at an equality test that meets a coincidence (see Expr.coin). *)
Record cfg := { strict : bool; fpow : Z -> Q -> option Z }.

Record kern := {
  k_sum : list expr -> res expr;       (* Sum(terms) *)
  k_prod : list expr -> res expr;      (* Prod(terms) *)
  k_pow : expr -> expr -> res expr;    (* Power(base, exponent) *)
  k_abs : expr -> res expr;            (* Abs(inner) *)
  k_repr : expr -> res string          (* repr(e) *)
}.

(** [a == b] and list equality [l == m]; see Expr.eeqb. *)
Definition py_eq (c : cfg) (a b : expr) : res bool :=
  if strict c && coin a b then Stop Coincidence else Ok (eeqb a b).
Definition py_eql (c : cfg) (l m : list expr) : res bool :=
  if strict c && coinl l m then Stop Coincidence else Ok (eeqbl l m).

(** ** Numbers *)

(** Fraction % Fraction (Rat.__mod__, expr.py:610-615) *)
Definition qmod (a b : Q) : Q := (a - b * inject_Z (Qfloor (a / b)))%Q.

(** addition / multiplication of the [.value]s of two accumulateable numbers inside
    accumulate (expr.py:713-729); inf - inf and 0 * inf would give Float(nan). *)
Definition val_add (a b : expr) : res expr :=
  match a, b with
  | ERat p, ERat q => Ok (rat (p + q))
  | ERat _, EInf | EInf, ERat _ | EInf, EInf => Ok EInf
  | ERat _, ENegInf | ENegInf, ERat _ | ENegInf, ENegInf => Ok ENegInf
  | _, _ => Stop Unmodelled
  end.
Definition val_sign (a : expr) : Z :=
  match a with ERat q => Z.sgn (Qnum q) | EInf => 1 | ENegInf => -1 | _ => 0 end.
Definition val_mul (a b : expr) : res expr :=
  match a, b with
  | ERat p, ERat q => Ok (rat (p * q))
  | _, _ =>
      match val_sign a * val_sign b with
      | Z0 => Stop Unmodelled
      | Zpos _ => Ok EInf
      | Zneg _ => Ok ENegInf
      end
  end.

(** accumulate(consts, type_="sum") and type_="prod", expr.py:713-729.
    A single constant is returned unchanged, otherwise Const(reduce(...)). *)
Definition acc_sum (cs : list expr) : res expr :=
  match cs with [t] => Ok t | _ => foldM val_add cs (ERat 0) end.
Definition acc_prod (cs : list expr) : res expr :=
  match cs with [t] => Ok t | _ => foldM val_mul cs (ERat 1) end.

Section Build.
Context (c : cfg) (k : kern).

(** ** Operators *)

(** __add__/__radd__: expr.py:133-139, 524-534 *)
Definition op_add (a b : expr) : res expr :=
  match a, b with ERat p, ERat q => Ok (rat (p + q)) | _, _ => k_sum k [a; b] end.
(** __mul__/__rmul__: expr.py:149-155, 548-558 *)
Definition op_mul (a b : expr) : res expr :=
  match a, b with ERat p, ERat q => Ok (rat (p * q)) | _, _ => k_prod k [a; b] end.
(** __sub__/__rsub__: expr.py:141-147, 536-546 *)
Definition op_sub (a b : expr) : res expr :=
  match a, b with
  | ERat p, ERat q => Ok (rat (p - q))
  | _, _ => m <- op_mul (ERat (-1)) b;; op_add a m
  end.
(** __truediv__/__rtruediv__: expr.py:169-179, 560-570 *)
Definition op_div (a b : expr) : res expr :=
  match a, b with
  | ERat p, ERat q =>
      if qis0 q then i <- k_pow k b (ERat (-1));; k_prod k [a; i] else Ok (rat (p / q))
  | _, _ => i <- k_pow k b (ERat (-1));; k_prod k [a; i]
  end.
(** __pow__/__rpow__: expr.py:157-163, 575-587.  Fraction ** Fraction is exact for an
    integer exponent (ZeroDivisionError for 0 ** negative), else a float or complex, in which
    case Power is called. *)
Definition op_pow (a b : expr) : res expr :=
  match a, b with
  | ERat p, ERat q =>
      if qis0 p && qlt0 q then Raise ZeroDivisionError
      else if qisint q then Ok (rat (Qpower p (numer q)))
      else k_pow k a b
  | _, _ => k_pow k a b
  end.
(** __neg__: expr.py:181-182, 572-573 (Rat), 670-671, 689-690 (infinities), 918-919 (Sum) *)
Fixpoint op_neg (e : expr) : res expr :=
  let fix negl (l : list expr) : res (list expr) :=
    match l with
    | [] => Ok []
    | t :: r => t' <- op_neg t;; r' <- negl r;; Ok (t' :: r')
    end in
  match e with
  | ERat q => Ok (rat (- q))
  | EInf => Ok ENegInf
  | ENegInf => Ok EInf
  | ESum ts => ts' <- negl ts;; k_sum k ts'
  | _ => op_mul (ERat (-1)) e
  end.
(** __abs__: expr.py:184-185, 589-590, 664-665, 683-684 *)
Definition op_abs (e : expr) : res expr :=
  match e with
  | ERat q => Ok (rat (Qabs q))
  | EInf | ENegInf => Ok EInf
  | _ => k_abs k e
  end.

(** ** Combining like terms *)

(** The later terms whose non-constant factors equal [ncf1] (with their coefficients, in
    order) and the remaining ones: inner loop of _combine_like_terms_sum, expr.py:831-842. *)
Fixpoint split_like (ncf1 : list expr) (l : list expr) : res (list expr * list expr) :=
  match l with
  | [] => Ok ([], [])
  | t :: r =>
      let '(cs, ncf2) := decon_prod t in
      b <- py_eql c ncf1 ncf2;;
      '(hits, rest) <- split_like ncf1 r;;
      if b : bool then Ok (cs ++ hits, rest) else Ok (hits, t :: rest)
  end.

(** _combine_like_terms_sum, expr.py:815-865: main loop, [n] bounds the number of remaining
    terms.  Result: (non-constant terms, constants).  Python overwrites a consumed later term
    with None; here it is removed from the list. *)
Fixpoint combine_sum_go (n : nat) (l : list expr) : res (list expr * list expr) :=
  match n, l with
  | _, [] => Ok ([], [])
  | O, _ => Stop OutOfFuel
  | S n', t :: r =>
      if is_acc t then
        '(nc, cs) <- combine_sum_go n' r;; Ok (nc, t :: cs)
      else
        let '(coeffs, ncf) := decon_prod t in
        '(hits, rest) <- split_like ncf r;;
        '(nc, cs) <- combine_sum_go n' rest;;
        match hits with
        | [] => Ok (t :: nc, cs)
        | _ =>
            coeff <- acc_sum (coeffs ++ hits);;
            if isq coeff 0 then Ok (nc, cs)
            else if isq coeff 1 then p <- prod_skip ncf;; Ok (p :: nc, cs)
            else p <- prod_skip (coeff :: ncf);; Ok (p :: nc, cs)
        end
  end.
Definition combine_sum (l : list expr) : res (list expr) :=
  '(nc, cs) <- combine_sum_go (List.length l) l;;
  match cs with
  | [] => Ok nc
  | _ => k0 <- acc_sum cs;; if isq k0 0 then Ok nc else Ok (nc ++ [k0])
  end.

(** Inner loop of _combine_like_terms, expr.py:1107-1117: adds up the exponents of the later
    terms with the same base.  Result: (was there a hit, exponent, remaining terms). *)
Fixpoint split_base (base expo : expr) (l : list expr) : res (bool * expr * list expr) :=
  match l with
  | [] => Ok (false, expo, [])
  | t :: r =>
      let '(ob, oe) := decon_pow t in
      b <- py_eq c ob base;;
      if b : bool then
        expo' <- op_add expo oe;;
        '(_, ex, rest) <- split_base base expo' r;; Ok (true, ex, rest)
      else
        '(h, ex, rest) <- split_base base expo r;; Ok (h, ex, t :: rest)
  end.

(** _add_term, expr.py:1092-1096 *)
Definition add_term (t : expr) (p : list expr * list expr) : list expr * list expr :=
  if is_acc t then (fst p, t :: snd p) else (t :: fst p, snd p).

(** _combine_like_terms, expr.py:1083-1137 *)
Fixpoint combine_prod_go (n : nat) (l : list expr) : res (list expr * list expr) :=
  match n, l with
  | _, [] => Ok ([], [])
  | O, _ => Stop OutOfFuel
  | S n', t :: r =>
      let '(base, expo) := decon_pow t in
      '(h, ex, rest) <- split_base base expo r;;
      if h : bool then
        if isq ex 0 then combine_prod_go n' rest
        else if isq ex 1 then p <- combine_prod_go n' rest;; Ok (add_term base p)
        else t' <- k_pow k base ex;; p <- combine_prod_go n' rest;; Ok (add_term t' p)
      else p <- combine_prod_go n' rest;; Ok (add_term t p)
  end.
Definition combine_prod (l : list expr) : res (list expr) :=
  '(nc, cs) <- combine_prod_go (List.length l) l;;
  match cs with
  | [] => Ok nc
  | _ =>
      k0 <- acc_prod cs;;
      if isq k0 0 then Ok [k0] else if isq k0 1 then Ok nc else Ok (nc ++ [k0])
  end.

(** ** Sorting: Associative._sort_terms, expr.py:315-381 *)

(** _deconstruct_const_power, expr.py:360-364 *)
Definition const_power (e : expr) : res Q :=
  '(s, _) <- rcf e;;
  match s with EPow _ (ERat q) => Ok q | _ => Ok 1%Q end.

(** repr comparison [1 if a.__repr__() > b.__repr__() else -1] as "a sorts before b". *)
Definition repr_lt (a b : expr) : res bool :=
  ra <- k_repr k a;; rb <- k_repr k b;;
  Ok (match String.compare ra rb with Gt => false | _ => true end).

(** [_compare(a, b) < 0], expr.py:343-378 *)
Definition lt_terms (a b : expr) : res bool :=
  na <- nwf a;; nb <- nwf b;;
  if Nat.eqb na 0 && Nat.eqb nb 0 then
    let sa := symboless_nest a in
    let sb := symboless_nest b in
    if Nat.eqb sa sb then repr_lt a b else Ok (Nat.ltb sa sb)
  else if Nat.eqb na nb then
    pa <- const_power a;; pb <- const_power b;;
    if Qeq_bool pa pb then repr_lt a b else Ok (negb (Qle_bool pb pa))
  else Ok (Nat.ltb na nb).

(** sorted(terms, key=cmp_to_key(_compare)), expr.py:380-381.  Python's sort is modelled by
    insertion sort; any comparison sort returns the same list when [_compare] is a strict
    total order on the given terms. *)
Fixpoint insert_term (x : expr) (l : list expr) : res (list expr) :=
  match l with
  | [] => Ok [x]
  | y :: r => b <- lt_terms x y;;
              if b : bool then Ok (x :: y :: r) else r' <- insert_term x r;; Ok (y :: r')
  end.
Definition sort_terms (l : list expr) : res (list expr) :=
  foldM (fun acc x => insert_term x acc) l [].

(** ** Sum.__new__, expr.py:874-901 (sorted, then reversed: 912-916) *)
Definition sum_body (ts : list expr) : res expr :=
  nc <- combine_sum (flat_sum ts);;
  match nc with
  | [] => Ok (ERat 0)
  | [t] => Ok t
  | _ => s <- sort_terms nc;; Ok (ESum (rev s))
  end.

(** ** Prod.__new__, expr.py:1147-1176 *)
Definition prod_body (ts : list expr) : res expr :=
  nc <- combine_prod (flat_prod ts);;
  match nc with
  | [] => Ok (ERat 1)
  | [t] => Ok t
  | _ =>
      s <- sort_terms nc;;
      match s with
      | [t0; ESum us] => if isq t0 (-1) then op_neg (ESum us) else Ok (EProd s)
      | _ => Ok (EProd s)
      end
  end.

(** ** Power.__new__ and helpers *)

(** [Const(b.value ** x.value)] when an infinity is involved, expr.py:734-735.  Finite
    results are floats (0.0 or 1.0), outside the model. *)
Definition inf_pow (b x : expr) : res expr :=
  match b, x with
  | EInf, ERat q => if qgt0 q then Ok EInf else Stop Unmodelled
  | EInf, EInf => Ok EInf
  | ENegInf, ERat q =>
      if qgt0 q then Ok (if qisint q && Z.odd (numer q) then ENegInf else EInf)
      else Stop Unmodelled
  | ENegInf, EInf => Ok EInf
  | ERat p, EInf => if Qle_bool (Qabs p) 1 then Stop Unmodelled else Ok EInf
  | ERat p, ENegInf => if Qle_bool 1 (Qabs p) then Stop Unmodelled else Ok EInf
  | _, _ => Stop Unmodelled
  end.

(** [a ** abs(x.value)] restricted to its use here: [Some m] iff isint(...) holds and the value
    is m, expr.py:746-750.  A negative int to a non-integer power is a complex number
    (unless the exponent, as a double, is an integer: exponents beyond 2^52 with a fractional part are not modelled). *)
Definition int_pow (a : Z) (ax : Q) : option Z :=
  if qisint ax then Some (a ^ numer ax)
  else if a <? 0 then None else fpow c a ax.

(** _accumulate_power, expr.py:732-776; None means "cannot be simplified". *)
Definition acc_pow (b x : expr) : res (option expr) :=
  match b, x with
  | ERat p, ERat q =>
      if qis0 p then Ok (Some (if qgt0 q then ERat 0 else EInf))
      else
        let num := int_pow (numer p) (Qabs q) in
        let den := int_pow (denom p) (Qabs q) in
        match num, den with
        | Some m, Some d =>
            Ok (Some (if qgt0 q then rat (inject_Z m / inject_Z d)
                      else rat (inject_Z d / inject_Z m)))
        | _, _ =>
            if (numer p =? 1) || (negb (denom p =? 1) && qlt0 q) then
              r <- k_pow k (rat (/ p)) (rat (- q));; Ok (Some r)
            else if Z.even (denom q) && qlt0 p then Ok None
            else if qlt0 p then
              r <- k_pow k (rat (- p)) x;; s <- op_mul (ERat (-1)) r;; Ok (Some s)
            else
              let ans :=
                match num, den with
                | Some m, _ =>
                    if m =? 1 then
                      match den with
                      | Some d => if d =? 1 then None else
                          Some (EProd [rat (/ inject_Z d); EPow (ratz (numer p)) x])
                      | None => None
                      end
                    else Some (EProd [ratz m; EPow (ratz (denom p)) (rat (- q))])
                | None, Some d =>
                    if d =? 1 then None
                    else Some (EProd [rat (/ inject_Z d); EPow (ratz (numer p)) x])
                | None, None => None
                end in
              match ans with
              | None => Ok None
              | Some a => if qgt0 q then Ok (Some a)
                          else r <- op_div (ERat 1) a;; Ok (Some r)
              end
        end
  | _, _ => r <- inf_pow b x;; Ok (Some r)
  end.

(** _multiply_exponents, expr.py:1328-1343 *)
Definition mult_exp (b x1 x2 : expr) : res expr :=
  let default := m <- op_mul x1 x2;; op_pow b m in
  match x1, x2 with
  | ERat q1, ERat q2 =>
      if qis0 (qmod q1 2) then
        if qis0 q2 then Raise ZeroDivisionError
        else if Qeq_bool q1 (/ q2) then k_abs k b else default
      else default
  | _, _ => default
  end.

(** The loop over x.terms in Power.__new__, expr.py:1425-1433: the first log factor whose base
    equals [b], with the other factors. *)
Fixpoint find_log (b : expr) (pre l : list expr) : res (option (expr * list expr)) :=
  match l with
  | [] => Ok None
  | (ELog i lb) as t :: r =>
      e <- py_eq c lb b;;
      if e : bool then Ok (Some (i, pre ++ r)) else find_log b (pre ++ [t]) r
  | t :: r => find_log b (pre ++ [t]) r
  end.

(** The tail of Power.__new__, expr.py:1434-1448. *)
Definition pow_tail (b x : expr) : res expr :=
  match x with
  | ERat q =>
      if is_sub b && qisint q then
        nb <- op_neg b;;
        if Z.even (numer q) then k_pow k nb x else p <- k_pow k nb x;; op_neg p
      else Ok (EPow b x)
  | _ =>
      if (is_num b || match b with EProd ts => forallb is_num ts | _ => false end)
         && negb (is_sub b) then
        match x with
        | EInf => Ok EInf
        | ENegInf => Ok (ERat 0)
        | _ => Ok (EPow b x)
        end
      else Ok (EPow b x)
  end.

(** Power.__new__, expr.py:1388-1448 *)
Definition pow_body (b x : expr) : res expr :=
  if isq x 0 then Ok (ERat 1)
  else if isq x 1 then Ok b
  else if isq b 1 then Ok (ERat 1)
  else if is_acc b && is_acc x then
    r <- acc_pow b x;;
    match r with Some e => Ok e | None => Ok (EPow b x) end
  else
    match b with
    | EPow b0 x0 => mult_exp b0 x0 x
    | _ =>
        if is_prod b && negb (is_sub b) then
          ts <- mapM (fun t => k_pow k t x) (children b);; k_prod k ts
        else
          match x with
          | ELog i lb =>
              e <- py_eq c b lb;;
              if e : bool then Ok i else pow_tail b x
          | EProd xs =>
              r <- find_log b [] xs;;
              match r with
              | Some (i, rest) => rest' <- prod_skip rest;; k_pow k i rest'
              | None => pow_tail b x
              end
          | _ => pow_tail b x
          end
    end.

(** Abs.__new__, expr.py:2021-2037, with the re-run of the dataclass __init__ (1512-1514): when
    the recursive call returns an Abs, its inner is reset to the argument of the outer call.
    The loop at 2030-2033 tests the wrong variable and never fires. *)
Definition abs_body (e : expr) : res expr :=
  match e with
  | EE | EPi => Ok e
  | ERat q => Ok (rat (Qabs q))
  | EInf | ENegInf => Ok EInf
  | _ =>
      if is_sub e then
        n <- op_neg e;;
        r <- k_abs k n;;
        Ok (match r with EAbs _ => EAbs e | _ => r end)
      else
        p <- strictly_positive e;;
        if p : bool then Ok e else Ok (EAbs e)
  end.

(** ** Printing *)

Definition str_Z (z : Z) : string := NilZero.string_of_int (Z.to_int z).
(** str(Fraction), used by Rat.__repr__ expr.py:519-520 *)
Definition str_Q (q : Q) : string :=
  if denom q =? 1 then str_Z (numer q)
  else (str_Z (numer q) ++ "/" ++ str_Z (denom q))%string.

(** isfractionorneg, islongsymbol: expr.py:1079-1080 *)
Definition isfractionorneg (e : expr) : bool :=
  match e with ERat q => negb (denom q =? 1) || qlt0 q | _ => false end.
Definition islongsymbol (e : expr) : bool :=
  match e with
  | ESym s => Nat.ltb 1 (String.length s)
  | EAny s => Nat.ltb 1 (String.length s)
  | _ => false
  end.

Definition parens (s : string) : string := ("(" ++ s ++ ")")%string.

(** Prod.__repr__._term_repr 1185-1188, Power.__repr__._term_repr 1354-1357 *)
Definition prod_term_repr (t : expr) : res string :=
  s <- k_repr k t;;
  Ok (if is_sum t || islongsymbol t then parens s else s).
Definition pow_term_repr (t : expr) : res string :=
  s <- k_repr k t;;
  Ok (if is_sum t || is_prod t || isfractionorneg t || islongsymbol t then parens s else s).

(** _repr, expr.py:1542-1546 *)
Definition last_char (s : string) : option ascii :=
  match String.length s with O => None | S n => String.get n s end.
Definition repr_fn (label : string) (i : expr) : res string :=
  s <- k_repr k i;;
  match String.get 0 s, last_char s with
  | Some f, Some l =>
      Ok (if Ascii.eqb f "("%char && Ascii.eqb l ")"%char
          then (label ++ s)%string else (label ++ parens s)%string)
  | _, _ => Raise IndexError
  end.

(** Prod.numerator_denominator, expr.py:1236-1257 and 1259-1263 *)
Fixpoint numden_go (l : list expr) : res (list expr * list expr) :=
  match l with
  | [] => Ok ([], [])
  | ERat q :: r =>
      '(n, d) <- numden_go r;;
      Ok (if numer q =? 1 then n else ratz (numer q) :: n,
          if denom q =? 1 then d else ratz (denom q) :: d)
  | t :: r =>
      let '(b, x) := decon_pow t in
      '(n, d) <- numden_go r;;
      match x with
      | ERat q =>
          if qlt0 q then
            if Qeq_bool q (-1) then Ok (n, b :: d)
            else p <- k_pow k b (rat (- q));; Ok (n, p :: d)
          else Ok (t :: n, d)
      | ENegInf => p <- k_pow k b EInf;; Ok (n, p :: d)
      | _ => Ok (t :: n, d)
      end
  end.
Definition numden (ts : list expr) : res (expr * expr) :=
  '(n, d) <- numden_go ts;;
  ne <- prod_skip n;; de <- prod_skip d;; Ok (ne, de).

(** log._label, expr.py:1554-1561: for an integer base the code evaluates ["log" + self.base],
    which reaches Rat.__radd__ and _cast("log"), raising NotImplementedError. *)
Definition log_label (b : expr) : res string :=
  e <- py_eq c b EE;;
  if e : bool then Ok "ln"%string
  else match b with
       | ERat q => if qisint q then Raise NotImplementedError
                   else s <- k_repr k b;; Ok ("log[base=" ++ s ++ "]")%string
       | _ => s <- k_repr k b;; Ok ("log[base=" ++ s ++ "]")%string
       end.

Fixpoint sum_repr_rest (l : list expr) : res string :=
  match l with
  | [] => Ok ""%string
  | t :: r =>
      s <- (if is_sub t then n <- op_neg t;; s <- k_repr k n;; Ok (" - " ++ s)%string
            else s <- k_repr k t;; Ok (" + " ++ s)%string);;
      s' <- sum_repr_rest r;; Ok (s ++ s')%string
  end.

(** __repr__ of every class: Num 418-420, Rat 519, Pi 634, E 645, Symbol 789, Any_ regex.py:41,
    Sum 932-942, Prod 1184-1212, Power 1353-1370, SingleFunc 1524, log 1563, Abs 2009. *)
Definition repr_body (e : expr) : res string :=
  match e with
  | ERat q => Ok (str_Q q)
  | EPi => Ok "pi"%string
  | EE => Ok "e"%string
  | EInf => Ok "inf"%string
  | ENegInf => Ok "-inf"%string
  | ESym s => Ok s
  | EAny s => Ok ("any_" ++ s)%string
  | ESum [] => Ok ""%string
  | ESum (t :: r) => s <- k_repr k t;; s' <- sum_repr_rest r;; Ok (s ++ s')%string
  | EProd ts =>
      if is_sub e then
        n <- op_mul e (ERat (-1));;
        if is_prod n then
          if is_sub n then Raise ValueError
          else s <- k_repr k n;; Ok ("-" ++ s)%string
        else s <- prod_term_repr n;; Ok ("-" ++ s)%string
      else
        '(n, d) <- numden ts;;
        if isq d 1 then ss <- mapM prod_term_repr ts;; Ok (String.concat "*" ss)
        else
          ns <- (if is_prod n then k_repr k n else prod_term_repr n);;
          ds <- (if is_prod d then s <- k_repr k d;; Ok (parens s) else prod_term_repr d);;
          Ok (ns ++ "/" ++ ds)%string
  | EPow b x =>
      if isq x (-1) then s <- pow_term_repr b;; Ok ("1/" ++ s)%string
      else
        match x with
        | ERat q =>
            if qlt0 q then
              p <- k_pow k b (rat (- q));; s <- k_repr k p;; Ok ("1/" ++ s)%string
            else if Qeq_bool q (1 # 2) then repr_fn "sqrt" b
            else s1 <- pow_term_repr b;; s2 <- pow_term_repr x;; Ok (s1 ++ "^" ++ s2)%string
        | _ => s1 <- pow_term_repr b;; s2 <- pow_term_repr x;; Ok (s1 ++ "^" ++ s2)%string
        end
  | ELog i b => l <- log_label b;; repr_fn l i
  | ETrig f i => repr_fn (trig_label f) i
  | EAbs i => s <- k_repr k i;; Ok ("|" ++ s ++ "|")%string
  end.

Definition build : kern :=
  {| k_sum := sum_body; k_prod := prod_body; k_pow := pow_body;
     k_abs := abs_body; k_repr := repr_body |}.
End Build.

Definition kbot : kern :=
  {| k_sum := fun _ => Stop OutOfFuel; k_prod := fun _ => Stop OutOfFuel;
     k_pow := fun _ _ => Stop OutOfFuel; k_abs := fun _ => Stop OutOfFuel;
     k_repr := fun _ => Stop OutOfFuel |}.

Fixpoint K (c : cfg) (n : nat) : kern :=
  match n with O => kbot | S n' => build c (K c n') end.

(** ** Two concrete float oracles *)

(** Exact oracle: [Some m] iff the power is the integer [m]; computed with an integer q-th
    root of [a^p], found by binary search. *)
Fixpoint iroot_search (fuel : nat) (n : Z) (t : Z) (lo hi : Z) : Z :=
  match fuel with
  | O => lo
  | S f => if hi - lo <=? 1 then lo
           else let mid := (lo + hi) / 2 in
                if mid ^ n <=? t then iroot_search f n t mid hi
                else iroot_search f n t lo mid
  end.
Definition iroot (n t : Z) : Z :=
  iroot_search (Z.to_nat (Z.log2 t + 3)) n t 0 (2 ^ (Z.log2 t / n + 1)).
Definition fpow_exact_oracle (a : Z) (x : Q) : option Z :=
  let p := numer x in
  let q := denom x in
  if (0 <? a) && (0 <? p) then
    let m := iroot q (a ^ p) in
    if (m ^ q =? a ^ p) && (0 <? m) then Some m else None
  else None.
Definition exact_cfg : cfg := {| strict := false; fpow := fpow_exact_oracle |}.
Definition strict_cfg : cfg := {| strict := true; fpow := fpow_exact_oracle |}.

(** An oracle with the rounding that Python's float(int) performs: keep 53 bits, round half to
    even; then an exact root of the rounded number.  Used to exhibit inexact acceptances. *)
Definition round53 (a : Z) : Z :=
  let e := Z.log2 a - 52 in
  if e <=? 0 then a
  else
    let m := a / 2 ^ e in
    let r := a mod 2 ^ e in
    let h := 2 ^ (e - 1) in
    (if (h <? r) || ((h =? r) && Z.odd m) then m + 1 else m) * 2 ^ e.
Definition fpow_b64 (a : Z) (x : Q) : option Z := fpow_exact_oracle (round53 a) x.
Definition b64_cfg : cfg := {| strict := false; fpow := fpow_b64 |}.

(** Public constructors with explicit fuel. *)
Definition mkSum (c : cfg) (n : nat) := k_sum (K c n).
Definition mkProd (c : cfg) (n : nat) := k_prod (K c n).
Definition mkPow (c : cfg) (n : nat) := k_pow (K c n).
Definition mkAbs (c : cfg) (n : nat) := k_abs (K c n).
Definition reprE (c : cfg) (n : nat) := k_repr (K c n).
