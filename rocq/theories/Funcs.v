(** * Funcs: the constructors log and sin..atan, and the library record [F].

    Models src/simpy/expr.py:1549-2007 on top of the kernel. *)
From Verif Require Export Mono.

(** ** Domain guard (not part of /repo)

    [dom] is an oracle over would-be nodes [EPow b x], [ELog i b], [ETrig f i].  Guarded runs
    stop when a function above the kernel asks for a power, log or trig value that is neither
    trivially defined nor accepted by [dom].  With [dom = fun _ => true] this is the plain code. *)

(** Powers defined at every assignment: positive rational base; non-negative integer literal
    exponent; non-zero rational base with integer literal exponent; base e or pi. *)
Definition pow_always (b x : expr) : bool :=
  match b, x with
  | EPi, _ | EE, _ => true
  | ERat p, ERat q => qgt0 p || (qisint q && (negb (qis0 p) || negb (qlt0 q)))
  | ERat p, _ => qgt0 p
  | _, ERat q => qisint q && negb (qlt0 q)
  | _, _ => false
  end.

Definition trig_always (f : trig) : bool :=
  match f with Sin | Cos => true | _ => false end.

Definition guard {A} (ok : bool) (r : res A) : res A := if ok then r else Stop Domain.

Definition gk (dom : expr -> bool) (k : kern) : kern :=
  {| k_sum := k_sum k; k_prod := k_prod k;
     k_pow := fun b x => guard (pow_always b x || dom (EPow b x)) (k_pow k b x);
     k_abs := k_abs k; k_repr := k_repr k |}.

(** The constructors as seen by the rest of the library. *)
Record fkern := {
  kk :> kern;
  k_eq : expr -> expr -> res bool;         (* a == b *)
  k_log : expr -> expr -> res expr;        (* log(inner, base) *)
  k_trig : trig -> expr -> res expr;       (* sin(inner), .. *)
  k_strict : bool;                         (* not in /repo: strict mode *)
  k_node : expr -> bool;                   (* not in /repo: the domain oracle *)
  k_raw : kern                             (* the constructors without domain guard *)
}.

(** sqrt(x), expr.py:1621-1623 *)
Definition sqrtE (k : kern) (e : expr) : res expr := op_pow k e (ERat (1 # 2)).

(** ** log.__new__, expr.py:1588-1605, __init__ 1607-1610.  When the returned object is itself a log, Python re-runs
    log.__init__ on it with the arguments of the outer call, making it its own descendant. *)
Definition mk_log (c : cfg) (i b : expr) : res expr :=
  if isq i 1 then Ok (ERat 0)
  else
    e1 <- py_eq c i b;;
    if e1 : bool then Ok (ERat 1)
    else
      match i with
      | EPow pb x =>
          e2 <- py_eq c pb b;;
          if e2 : bool then match x with ELog _ _ => Stop Cycle | _ => Ok x end
          else Ok (ELog i b)
      | _ => Ok (ELog i b)
      end.

(** ** Special values *)

(** _SPECIAL_KEYS, expr.py:1661-1678 *)
Definition special_keys : list Q :=
  [0; 1#6; 1#4; 1#3; 1#2; 2#3; 3#4; 5#6; 1; 7#6; 5#4; 4#3; 3#2; 5#3; 7#4; 11#6]%Q.

(** The literals of the two tables: n/sqrt(2), sqrt(3)/2, -sqrt(3)/2. *)
Definition over_sqrt2 (k : kern) (z : Q) : res expr :=
  s <- sqrtE k (ERat 2);; op_div k (ERat z) s.
Definition sqrt3_2 (k : kern) : res expr :=
  s <- sqrtE k (ERat 3);; op_div k s (ERat 2).
Definition nsqrt3_2 (k : kern) : res expr :=
  s <- sqrtE k (ERat 3);; n <- op_neg k s;; op_div k n (ERat 2).

(** sin._special_values, expr.py:1831-1850 *)
Definition sin_table (k : kern) : list (Q * res expr) :=
  [ (0, Ok (ERat 0)); (1#6, Ok (ERat (1#2))); (1#4, over_sqrt2 k 1); (1#3, sqrt3_2 k);
    (1#2, Ok (ERat 1)); (2#3, sqrt3_2 k); (3#4, over_sqrt2 k 1); (5#6, Ok (ERat (1#2)));
    (1, Ok (ERat 0)); (7#6, Ok (ERat (-1#2))); (5#4, over_sqrt2 k (-1)); (4#3, nsqrt3_2 k);
    (3#2, Ok (ERat (-1))); (5#3, nsqrt3_2 k); (7#4, over_sqrt2 k (-1));
    (11#6, Ok (ERat (-1#2))) ]%Q.
(** cos._special_values, expr.py:1870-1889 *)
Definition cos_table (k : kern) : list (Q * res expr) :=
  [ (0, Ok (ERat 1)); (1#6, sqrt3_2 k); (1#4, over_sqrt2 k 1); (1#3, Ok (ERat (1#2)));
    (1#2, Ok (ERat 0)); (2#3, Ok (ERat (-1#2))); (3#4, over_sqrt2 k (-1)); (5#6, nsqrt3_2 k);
    (1, Ok (ERat (-1))); (7#6, nsqrt3_2 k); (5#4, over_sqrt2 k (-1)); (4#3, Ok (ERat (-1#2)));
    (3#2, Ok (ERat 0)); (5#3, Ok (ERat (1#2))); (7#4, over_sqrt2 k 1); (11#6, sqrt3_2 k) ]%Q.

Fixpoint lookup_q (q : Q) (t : list (Q * res expr)) : res expr :=
  match t with
  | [] => Raise KeyError
  | (p, r) :: t' => if Qeq_bool p q then r else lookup_q q t'
  end.

(** cls.special_values[key]: tan 1921-1923, csc 1934-1936, sec 1947-1949, cot 1961-1963.
    asin, acos, atan (1977-1979, 1990-1992, 2003-2005) iterate over a dict as if it gave pairs and
    raise ValueError.  Python computes the whole table once; the model computes the entry. *)
Definition special (k : kern) (f : trig) (q : Q) : res expr :=
  let s := lookup_q q (sin_table k) in
  let o := lookup_q q (cos_table k) in
  match f with
  | Sin => s
  | Cos => o
  | Tan => a <- s;; b <- o;; op_div k a b
  | Csc => a <- s;; op_div k (ERat 1) a
  | Sec => a <- o;; op_div k (ERat 1) a
  | Cot => a <- o;; b <- s;; op_div k a b
  | Asin | Acos | Atan => Raise ValueError
  end.

(** _period, expr.py:1820, 1909, 1959 *)
Definition period (f : trig) : Q := match f with Tan | Cot => 1%Q | _ => 2%Q end.

(** _double_simplification_dict, expr.py:1686-1705, entries that can be reached: outer function
    sin/cos/tan, inner asin/acos/atan of a different name. *)
Definition double_simp (k : kern) (f g : trig) (x : expr) : res expr :=
  let one_minus := sq <- op_pow k x (ERat 2);; m <- op_sub k (ERat 1) sq;; sqrtE k m in
  let one_plus := sq <- op_pow k x (ERat 2);; m <- op_add k (ERat 1) sq;; sqrtE k m in
  match f, g with
  | Sin, Acos | Cos, Asin => one_minus
  | Sin, Atan => d <- one_plus;; op_div k x d
  | Cos, Atan => d <- one_plus;; op_div k (ERat 1) d
  | Tan, Asin => d <- one_minus;; op_div k x d
  | Tan, Acos => d <- one_minus;; op_div k d x
  | _, _ => Raise KeyError
  end.

(** The loop over the terms of a Sum, expr.py:1752-1759: first term that is a rational multiple
    of pi, the multiple being divisible by the period. *)
Fixpoint find_period (k : kern) (p : Q) (l : list expr) : res (option expr) :=
  match l with
  | [] => Ok None
  | t :: r =>
      if has_pi t then
        co <- op_div k t EPi;;
        match co with
        | ERat q => if qis0 (qmod q p) then Ok (Some t) else find_period k p r
        | _ => find_period k p r
        end
      else find_period k p r
  end.

(** Part 2 of TrigFunction.__new__ (inner is a trig function) and the default, expr.py:1761-1794. *)
Definition trig_inner (k : kern) (f : trig) (i : expr) : res expr :=
  match i with
  | ETrig g j =>
      if Bool.eqb (is_inverse g) (is_inverse f) then Ok (ETrig f i)
      else if trig_eqb (trig_func g) (trig_func f) then Ok j
      else
        if (if is_inverse g
            then match reciprocal_class f with
                 | Some r => trig_eqb (trig_func g) (trig_func r) | None => false end
            else match reciprocal_class g with
                 | Some r => trig_eqb (trig_func r) (trig_func f) | None => false end)
        then op_div k (ERat 1) j
        else if is_inverse f then Ok (ETrig f i)
        else match f with
             | Sin | Cos | Tan => double_simp k f g j
             | Csc => d <- double_simp k Sin g j;; op_div k (ERat 1) d
             | Sec => d <- double_simp k Cos g j;; op_div k (ERat 1) d
             | Cot => d <- double_simp k Tan g j;; op_div k (ERat 1) d
             | _ => Ok (ETrig f i)
             end
  | _ => Ok (ETrig f i)
  end.

(** TrigFunction.__new__, expr.py:1735-1794 *)
Definition trig_base (k : kern) (f : trig) (i : expr) : res expr :=
  if isq i 0 then special k f 0
  else if negb (is_inverse f) && has_pi i then
    co <- op_div k i EPi;;
    let rest :=
      match i with
      | ESum ts =>
          o <- find_period k (period f) ts;;
          match o with
          | Some t => d <- op_sub k i t;; Ok (ETrig f d)
          | None => trig_inner k f i
          end
      | _ => trig_inner k f i
      end in
    match co with
    | ERat q =>
        let r := qmod q 2 in
        if existsb (fun p => Qeq_bool p r) special_keys then special k f r else rest
    | _ => rest
    end
  else trig_inner k f i.

(** sin.__new__ 1855-1859, cos.__new__ 1894-1903, tan.__new__ 1915-1919; the other classes use
    TrigFunction.__new__.  [n] bounds the sign extractions. *)
Fixpoint mk_trig (k : kern) (n : nat) (f : trig) (i : expr) : res expr :=
  match n with
  | O => Stop OutOfFuel
  | S n' =>
      match f with
      | Sin | Tan =>
          if is_sub i then m <- op_neg k i;; r <- mk_trig k n' f m;; op_neg k r
          else trig_base k f i
      | Cos =>
          r <- trig_base k Cos i;;
          match r with
          | ETrig Cos _ => if is_sub i then m <- op_neg k i;; Ok (ETrig Cos m) else Ok r
          | _ => Ok r
          end
      | _ => trig_base k f i
      end
  end.

(** The library with recursion bound [n], domain guard [dom]. *)
Definition F (dom : expr -> bool) (c : cfg) (n : nat) : fkern :=
  let k := gk dom (K c n) in
  {| kk := k;
     k_eq := py_eq c;
     k_log := fun i b => guard (dom (ELog i b)) (mk_log c i b);
     k_trig := fun f i => guard (trig_always f || dom (ETrig f i)) (mk_trig k n f i);
     k_strict := strict c;
     k_node := dom;
     k_raw := K c n |}.

Definition nodom : expr -> bool := fun _ => true.
