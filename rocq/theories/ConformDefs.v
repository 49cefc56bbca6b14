(** * ConformDefs: a small language of test cases, evaluated with the plain model (see Conform.v). *)
From Verif Require Import TrigSimp Trans Match PropsC Oracle Search Poly Pts Calc Expand Factor Regex Latex.
Import ListNotations. Open Scope string_scope. Open Scope list_scope. Open Scope Z_scope.

Inductive tm :=
| N (p : Z) (q : positive) | V (s : string) | K (e : expr)
| A (a b : tm) | S (a b : tm) | M (a b : tm) | D (a b : tm) | P (a b : tm) | Ng (a : tm) | Ab (a : tm)
| L (a : tm) | T (f : trig) (a : tm) | SumL (l : list tm) | ProdL (l : list tm) | Pw (a b : tm)
| Sim (a : tm) | Exp (a : tm) | Fac (a : tm) | Df (a : tm) (v : string) | Sb (a : tm) (m : list (string * tm)) | Pts (a : tm)
| Tr (f : string -> expr -> res (option expr)) (a : tm)
| I (a : tm) (b : bd)
with bd := TNone | TVar (v : string) | TPair (a b : tm) | TTriple (v : string) (a b : tm).

Definition fu : nat := 40.
Definition pf := PF exact_cfg fu.
Fixpoint us (k : nat) : string := match k with O => "u" | Datatypes.S k => String "_" (us k) end.
Definition anyrng := fun (_ : string) (_ : expr) => true.

Fixpoint evt (t : tm) : res expr :=
  let fix evl (l : list tm) : res (list expr) :=
    match l with [] => Ok [] | a :: r => a' <- evt a;; r' <- evl r;; Ok (a' :: r') end in
  let fix evm (l : list (string * tm)) : res (list (string * expr)) :=
    match l with [] => Ok [] | (s, a) :: r => a' <- evt a;; r' <- evm r;; Ok ((s, a') :: r') end in
  match t with
  | N p q => Ok (rat (p # q))
  | V s => Ok (ESym s)
  | K e => Ok e
  | A a b => a' <- evt a;; b' <- evt b;; op_add pf a' b'
  | S a b => a' <- evt a;; b' <- evt b;; op_sub pf a' b'
  | M a b => a' <- evt a;; b' <- evt b;; op_mul pf a' b'
  | D a b => a' <- evt a;; b' <- evt b;; op_div pf a' b'
  | P a b => a' <- evt a;; b' <- evt b;; op_pow pf a' b'
  | Ng a => a' <- evt a;; op_neg pf a'
  | Ab a => a' <- evt a;; op_abs pf a'
  | L a => a' <- evt a;; k_log pf a' EE
  | T f a => a' <- evt a;; k_trig pf f a'
  | SumL l => l' <- evl l;; k_sum pf l'
  | ProdL l => l' <- evl l;; k_prod pf l'
  | Pw a b => a' <- evt a;; b' <- evt b;; k_pow pf a' b'
  | Sim a => a' <- evt a;; simplifyE pf fu a'
  | Exp a => a' <- evt a;; expandE pf fu a'
  | Fac a => a' <- evt a;; match a' with ESum ts => factorE pf ts | _ => Ok a' end
  | Df a v => a' <- evt a;; diffE pf fu v a'
  | Sb a m => a' <- evt a;; m' <- evm m;; subs pf m' a'
  | Pts a => a' <- evt a;; o <- product_to_sum_unit pf fu a';; match o with Some r => Ok r | None => Raise AttributeError end
  | Tr f a => a' <- evt a;; o <- f "x"%string a';; match o with Some r => Ok r | None => Raise AttributeError end
  | I a b =>
      a' <- evt a;;
      b' <- match b with
            | TNone => Ok BNone
            | TVar v => Ok (BVar v)
            | TPair p q => p' <- evt p;; q' <- evt q;; Ok (BPair p' q')
            | TTriple v p q => p' <- evt p;; q' <- evt q;; Ok (BTriple v p' q')
            end;;
      o <- integrate_api pf anyrng us fu false 40 a' b';;
      match o with Some r => Ok r | None => Raise AttributeError end
  end.

(** transforms applied to the variable x: PullConstant, PolynomialDivision, CompleteTheSquare, and
    to_const_polynomial followed by rebuilding the coefficients as a sum of c * y^i *)
Definition t_pull v e := o <- pull_const pf v e;; Ok (match o with Some (_, r) => Some r | None => None end).
Definition t_polydiv v e := poly_division pf fu v e.
Definition t_cts v e := r <- cts_perform pf fu v e;; Ok (Some r).  (* forward, called without check *)
Definition t_poly v e := l <- to_const_polynomial pf fu v e;; r <- polynomial_to_expr pf "y" l;; Ok (Some r).
(** regex.eq(expr, query, up_to_sum): the match of the only wildcard, or the rest *)
Definition qany (f : trig) (c k : Z) : res expr :=
  s <- op_pow pf (ETrig f (EAny "k")) (ERat 2);; m <- op_mul pf (ERat (c # 1)) s;; op_add pf m (ERat (k # 1)).
Definition t_rest (f : trig) (c k : Z) (_ : string) (e : expr) : res (option expr) :=
  q <- qany f c k;; o <- eq_sum pf q e;; Ok (match o with Some (_, r) => Some r | None => None end).
Definition t_match (f : trig) (c k : Z) (_ : string) (e : expr) : res (option expr) :=
  q <- qany f c k;; o <- eq_sum pf q e;;
  Ok (match o with Some ((_, m) :: _, _) => Some m | _ => None end).

Inductive chk :=
| Strict (a b : tm) | Value (a b : tm) | PlusC (a b : tm) (vs : list string) | Repr (a : tm) (s : string)
| Expandable (a : tm) (b : bool) | IsSub (a : tm) (b : bool) | Count (a : tm) (v : string) (k : nat) | Nest (a : tm) (v : string) (k : nat)
| Unsolved (a : tm) (v : string) | Ltx (a : tm) (s : string) | LtxExact (a : tm) (s : string)
| Any (l : list chk).

(** s.replace(" ", ""), as in tests/test_latex.py *)
Fixpoint nospace (s : string) : string :=
  match s with "" => "" | String a r => if Ascii.eqb a " " then nospace r else String a (nospace r) end.

(** tests/test_utils.py simplify_to_same_standard *)
Definition standard (e : expr) : res expr :=
  e1 <- (b <- expandable pf e;; if b : bool then expandE pf fu e else Ok e);;
  e2 <- (if has_trig e1 then '(r, _) <- trig_simplify pf fu e1;; Ok r else Ok e1);;
  if has_log e2 then expand_logs pf fu e2 else Ok e2.
Definition free_of (vs : list string) (e : expr) : bool :=
  match vs with [] => match symbols e with [] => true | _ => false end
  | _ => forallb (fun v => negb (contains v e)) vs end.
Inductive out := Good | Bad (a b : res expr) | BadS (s : res string).
Definition isgood (o : out) : bool := match o with Good => true | _ => false end.
Definition bres (b : bool) (x y : res expr) : out := if b then Good else Bad x y.
Definition ltx (a : tm) : res string := x <- evt a;; latexE exact_cfg (Kernel.K (faithful exact_cfg) fu) fu x.
Fixpoint run (c : chk) : out :=
  match c with
  | Strict a b => match evt a, evt b with Ok x, Ok y => bres (eeqb x y) (Ok x) (Ok y) | x, y => Bad x y end
  | Value a b => match evt a, evt b with
                 | Ok x, Ok y => if eeqb x y then Good else
                     match (d <- op_sub pf x y;; standard d) with Ok d => bres (isq d 0) (Ok x) (Ok d) | r => Bad (Ok x) r end
                 | x, y => Bad x y end
  | PlusC a b vs => match evt a, evt b with
                 | Ok x, Ok y =>
                     match (d <- op_sub pf x y;; if free_of vs d then Ok d else standard d) with
                     | Ok d => bres (free_of vs d) (Ok x) (Ok d) | r => Bad (Ok x) r end
                 | x, y => Bad x y end
  | Repr a s => match (x <- evt a;; k_repr pf x) with Ok r => if String.eqb r s then Good else BadS (Ok r) | r => BadS r end
  | Ltx a s => match ltx a with Ok r => if String.eqb (nospace r) (nospace s) then Good else BadS (Ok r) | r => BadS r end
  | LtxExact a s => match ltx a with Ok r => if String.eqb r s then Good else BadS (Ok r) | r => BadS r end
  | Expandable a b => match (x <- evt a;; expandable pf x) with Ok r => bres (Bool.eqb r b) (evt a) (evt a) | _ => Bad (evt a) (evt a) end
  | IsSub a b => match evt a with Ok x => bres (Bool.eqb (is_sub x) b) (Ok x) (Ok x) | r => Bad r r end
  | Count a v k => match evt a with Ok x => bres (Nat.eqb (gcount (fun t => eeqb t (ESym v)) x) k) (Ok x) (Ok x) | r => Bad r r end
  | Nest a v k => match evt a with Ok x => bres (Nat.eqb (nesting (Some v) x) k) (Ok x) (Ok x) | r => Bad r r end
  | Unsolved a v => match (x <- evt a;; integrate pf anyrng us fu false 40 true x v) with Ok None => Good | Ok (Some r) => Bad (Ok r) (Ok r) | Raise x => Bad (Raise x) (Raise x) | Stop s => Bad (Stop s) (Stop s) end
  | Any l => (fix any l := match l with [] => Bad (Ok (ERat 0)) (Ok (ERat 0)) | c :: r => match run c with Good => Good | o => match r with [] => o | _ => any r end end end) l
  end.
Definition passes (c : chk) : bool := isgood (run c).
