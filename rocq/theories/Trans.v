(** * Trans: the integration transforms (src/simpy/transforms.py) as functions on integrands.

    Each transform's [check] and [forward] is modelled as one function from the integrand (and the
    variable) to the new integrand(s); where they are attached to the search tree is in Search.v.
    Not in /repo and only active in strict mode (guards): the oracle [rng] and the tests of
    [usub_guard], [cert] and the sign test of [trig_usub]; see DESIGN.md, section 3. *)
From Coquelicot Require Import Coquelicot.
From Verif Require Export Table.
Open Scope R_scope.

(** every power, log and trig node of [e] is trivially defined or accepted by the oracle (not in /repo) *)
Fixpoint cert (dom : expr -> bool) (e : expr) : bool :=
  match e with
  | ERat _ | EPi | EE | ESym _ => true
  | EInf | ENegInf | EAny _ => false
  | ESum ts => forallb (cert dom) ts
  | EProd ts => forallb (cert dom) ts && one_constb ts
  | EPow b x => cert dom b && cert dom x && (pow_always b x || dom (EPow b x))
  | ELog i b => cert dom i && cert dom b && dom (ELog i b)
  | ETrig f i => cert dom i && (trig_always f || dom (ETrig f i))
  | EAbs i => cert dom i
  end.

Section Trans.
Context (fk : fkern) (rng : string -> expr -> bool).
Let strictg {A} (b : bool) (r : res A) : res A := guard (negb (k_strict fk) || b) r.

(** PullConstant.check, transforms.py:231-246: (constant, non-constant part) *)
Fixpoint pull_go (v : string) (pre l : list expr) : res (option (expr * expr)) :=
  match l with
  | [] => Ok None
  | t :: r =>
      if negb (contains v t) then p <- k_prod fk (pre ++ r);; Ok (Some (t, p))
      else pull_go v (pre ++ [t]) r
  end.
Definition pull_const (v : string) (e : expr) : res (option (expr * expr)) :=
  match e with EProd ts => pull_go v [] ts | _ => Ok None end.

(** PolynomialDivision.check and forward, transforms.py:262-307 *)
Definition poly_division (n : nat) (v : string) (e : expr) : res (option expr) :=
  match symbols e, e with
  | [s], EProd ts =>
      if negb (String.eqb s v) then Ok None
      else
        '(num, den) <- numdenF fk ts;;
        if isq den 1 then Ok None
        else
          o <- catchA (a <- to_const_polynomial fk n v num;; b <- to_const_polynomial fk n v den;; Ok (a, b));;
          match o with
          | None => Ok None
          | Some (a, b) =>
              if Nat.ltb (List.length a) (List.length b) then Ok None
              else r <- poly_div fk n v a b;; Ok (Some r)
          end
  | _, _ => Ok None
  end.

(** Expand.check and forward, transforms.py:317-330, without the look at the last heuristic *)
Definition expand_step (n : nat) (e : expr) : res (option expr) :=
  b <- expandable fk e;; if b : bool then r <- expandE fk n e;; Ok (Some r) else Ok None.

(** PartialFractions.check, transforms.py:873-926.  [np.array([d2, d1]).T] has the rows
    [d2[i], d1[i]]; lists of different lengths make np.array raise ValueError. *)
Fixpoint transpose2 (a b : list expr) : res (list (list expr)) :=
  match a, b with
  | [], [] => Ok []
  | x :: a', y :: b' => r <- transpose2 a' b';; Ok ([x; y] :: r)
  | _, _ => Raise ValueError
  end.
(** one row of [inv @ numerator_list] *)
Definition dot2 (r : list expr) (n0 n1 : expr) : res expr :=
  match r with
  | [a; b] => x <- op_mul fk a n0;; y <- op_mul fk b n1;; op_add fk x y
  | _ => Raise ValueError
  end.
Definition partial_fractions (n : nat) (v : string) (e : expr) : res (option expr) :=
  match e with
  | EProd ts =>
      '(num, den) <- numdenF fk ts;;
      if isq den 1 then Ok None
      else
        o <- catchA (a <- to_const_polynomial fk n v num;; b <- to_const_polynomial fk n v den;; Ok (a, b));;
        match o with
        | None => Ok None
        | Some (nl, dl) =>
            if Nat.leb (List.length dl) (List.length nl) then Ok None
            else
              fd <- match den with
                    | EProd _ => Ok den
                    | ESum us => factorE fk us
                    | _ => Ok (ERat 0) (* not a product: rejected below *)
                    end;;
              match fd with
              | EProd [d1; d2] =>
                  if contains v d1 && contains v d2 then
                    l1 <- to_const_polynomial fk n v d1;; l2 <- to_const_polynomial fk n v d2;;
                    m <- transpose2 l2 l1;; inv <- invert fk m;;
                    match inv with
                    | Some [r1; r2] =>
                        '(n0, n1) <- match nl with
                                     | [a] => Ok (a, ERat 0) | [a; b] => Ok (a, b) | _ => Raise ValueError
                                     end;;
                        a0 <- dot2 r1 n0 n1;; a1 <- dot2 r2 n0 n1;;
                        p <- op_div fk a0 d1;; q <- op_div fk a1 d2;; s <- op_add fk p q;; Ok (Some s)
                    | _ => Ok None
                    end
                  else Ok None
              | _ => Ok None
              end
        end
  | _ => Ok None
  end.

(** *** u-substitutions.  The monitor accepts a substitution [u] with new variable [y] and new integrand
    [g] if [y] is new, [u] maps the box into the range of [y] and [u], [g] are defined on the box. *)
Definition usub_guard (v y : string) (e u g : expr) : bool :=
  negb (String.eqb y v) && negb (contains y e) && negb (contains y u) &&
  cert (k_node fk) u && cert (k_node fk) g && rng y u.
Definition usub (v y : string) (e u g : expr) : res (expr * expr) := strictg (usub_guard v y e u g) (Ok (u, g)).

(** LinearUSub.check, _is_a_linear_sum_or_prod, transforms.py:600-628: u, and the coefficient of
    the inverse substitution if there is one.  Quotients that are only looked at, not used, are
    computed without domain guard. *)
Definition linear_of (v : string) (e : expr) : res (option (expr * option expr)) :=
  let k := k_raw fk in
  match e with
  | ESum ts =>
      b <- allM (fun t => if contains v t then q <- op_div k t (ESym v);; Ok (negb (contains v q)) else Ok true) ts;;
      Ok (if b : bool then Some (e, None) else None)
  | EProd _ =>
      q <- op_div k e (ESym v);;
      if negb (contains v q) then Ok (Some (e, None))
      else
        e1 <- (if is_sub e then op_neg k e else Ok e);;
        '(xyz, _) <- rcf e1;;
        match xyz with
        | EPow b x =>
            if is_var v b && negb (contains v x) then
              co <- op_div k e1 xyz;;
              if isq co 1 then Ok None
              else
                ca <- (if is_num co then op_abs k co else Ok co);;
                ix <- op_div k (ERat 1) x;; ic <- k_pow k ca ix;;
                u <- op_mul fk ic (ESym v);; Ok (Some (u, Some ic))
            else Ok None
        | _ => Ok None
        end
  | _ => Ok None
  end.
(** _check, transforms.py:630-651; the state is (self._u, the coefficient in self._inverse_var_change) *)
Fixpoint linear_check (v : string) (e : expr) (s : option expr * option expr)
  : res (bool * (option expr * option expr)) :=
  let fix go (l : list expr) s : res (bool * (option expr * option expr)) :=
    match l with
    | [] => Ok (true, s)
    | t :: r => '(b, s') <- linear_check v t s;; if b : bool then go r s' else Ok (false, s')
    end in
  if negb (contains v e) then Ok (true, s)
  else
    o <- linear_of v e;;
    match o with
    | Some (u, ic) =>
        match fst s with
        | Some u0 => b <- k_eq fk u u0;; Ok (b, s)
        | None => Ok (true, (Some u, match ic with Some _ => ic | None => snd s end))
        end
    | None =>
        match e with
        | ESum ts | EProd ts => go ts s
        | EPow b x => '(r, s1) <- linear_check v b s;; if r : bool then linear_check v x s1 else Ok (false, s1)
        | ELog i b => '(r, s1) <- linear_check v i s;; if r : bool then linear_check v b s1 else Ok (false, s1)
        | ETrig _ i | EAbs i => linear_check v i s
        | _ => Ok (false, s)
        end
    end.
(** LinearUSub.forward, transforms.py:655-668.  A successful check of an expression that contains the
    variable has set [_u]. *)
Definition linear_usub (n : nat) (v y : string) (e : expr) : res (option (expr * expr)) :=
  if Nat.ltb (countE (ESym v) e) 1 then Ok None
  else
    '(b, (u, ic)) <- linear_check v e (None, None);;
    if b : bool then
      match u with
      | None => Raise AttributeError
      | Some u =>
          du <- diffE fk n v u;;
          g0 <- match ic with
                | Some c => strictg (cert (k_node fk) c && negb (contains v c))
                            (new <- op_div fk (ESym y) c;; u' <- op_mul fk c (ESym v);;
                             strictg (sameb u u') (replaceE fk e (ESym v) new))
                | None => replaceE fk e u (ESym y)
                end;;
          g <- op_div fk g0 du;;
          r <- usub v y e u g;; Ok (Some r)
      end
    else Ok None.

(** PolynomialUSub.check, transforms.py:542-573: (u, rest); [pre] are the factors before the current one *)
Fixpoint poly_u_go (v : string) (pre l : list expr) : res (option (expr * expr)) :=
  match l with
  | [] => Ok None
  | t :: r =>
      let found (n : res expr) := n' <- n;; rest <- k_prod fk (pre ++ r);; Ok (Some (n', rest)) in
      match t with
      | EPow b x => if is_var v b && negb (contains v x) then found (op_add fk x (ERat 1)) else poly_u_go v (pre ++ [t]) r
      | _ => if is_var v t then found (Ok (ERat 2)) else poly_u_go v (pre ++ [t]) r
      end
  end.
(** PolynomialUSub.check and forward, transforms.py:542-580 *)
Definition poly_usub (n : nat) (v y : string) (e : expr) : res (option (expr * expr)) :=
  match e with
  | EProd ts =>
      o <- poly_u_go v [] ts;;
      match o with
      | None => Ok None
      | Some (x, rest) =>
          if isq x 0 then Ok None
          else
            u <- k_pow fk (ESym v) x;;
            let c := countE u e in
            if Nat.ltb 0 c && Nat.eqb c (countE (ESym v) rest) then
              du <- diffE fk n v u;; g0 <- replaceE fk e u (ESym y);; g <- op_div fk g0 du;;
              r <- usub v y e u g;; Ok (Some r)
            else Ok None
      end
  | _ => Ok None
  end.

(** TrigUSub2._table and check, transforms.py:391-427 (without the look at the last heuristic).
    [cls(node.var)] is the node [ETrig f (ESym v)] itself, see [trig_sym]. *)
Definition trig_key (v : string) (e : expr) : option trig :=
  let ok f := let c := countE (ETrig f (ESym v)) e in Nat.leb 1 c && Nat.eqb c (countE (ESym v) e) in
  if ok Sin then Some Sin else if ok Cos then Some Cos else if ok Tan then Some Tan else None.
Definition trig_dy (f : trig) (y : string) : res expr :=
  let y2 := op_pow fk (ESym y) (ERat 2) in
  match f with
  | Sin => q <- y2;; m <- op_sub fk (ERat 1) q;; s <- sqrtE fk m;; op_div fk (ERat 1) s
  | Cos => q <- y2;; m <- op_sub fk (ERat 1) q;; s <- sqrtE fk m;; op_div fk (ERat (-1)) s
  | _ => q <- y2;; m <- op_add fk (ERat 1) q;; op_div fk (ERat 1) m
  end.
(** the substitution identity holds where cos x > 0 (sin), sin x > 0 (cos): monitor only, see C28 *)
Definition trig_sign (f : trig) (v : string) : bool :=
  match f with
  | Sin => k_node fk (EAbs (ETrig Cos (ESym v)))
  | Cos => k_node fk (EAbs (ETrig Sin (ESym v)))
  | _ => true
  end.
(** TrigUSub2.forward, transforms.py:398-407 *)
Definition trig_usub (v y : string) (e : expr) : res (option (expr * expr)) :=
  match trig_key v e with
  | None => Ok None
  | Some f =>
      let u := ETrig f (ESym v) in
      g0 <- replaceE fk e u (ESym y);; d <- trig_dy f y;; g <- op_mul fk g0 d;;
      strictg (trig_sign f v) (r <- usub v y e u g;; Ok (Some r))
  end.

(** RewriteTrig.forward, transforms.py:433-468: the three rewritings, those that changed something *)
Definition to_csc_tan (f : trig) : option (expr -> res expr) :=
  match f with
  | Sin => Some (fun x => c <- k_trig fk Csc x;; op_div fk (ERat 1) c)
  | Cos => Some (fun x => t <- k_trig fk Tan x;; a <- op_div fk (ERat 1) t;; c <- k_trig fk Csc x;; op_div fk a c)
  | Cot => Some (fun x => t <- k_trig fk Tan x;; op_div fk (ERat 1) t)
  | Sec => Some (fun x => t <- k_trig fk Tan x;; c <- k_trig fk Csc x;; op_mul fk t c)
  | _ => None
  end.
Definition to_sec_cot (f : trig) : option (expr -> res expr) :=
  match f with
  | Sin => Some (fun x => c <- k_trig fk Cot x;; a <- op_div fk (ERat 1) c;; s <- k_trig fk Sec x;; op_div fk a s)
  | Cos => Some (fun x => s <- k_trig fk Sec x;; op_div fk (ERat 1) s)
  | Tan => Some (fun x => c <- k_trig fk Cot x;; op_div fk (ERat 1) c)
  | Csc => Some (fun x => c <- k_trig fk Cot x;; s <- k_trig fk Sec x;; op_mul fk c s)
  | _ => None
  end.
Definition rewrite_trig (e : expr) : res (option (list expr)) :=
  if negb (has_trig e) then Ok None
  else
    r1 <- replace_class fk (to_sin_cos fk) e;;
    r2 <- replace_class fk to_csc_tan e;;
    r3 <- replace_class fk to_sec_cot e;;
    l <- filterM (fun r => b <- k_eq fk r e;; Ok (negb b)) [r1; r2; r3];; Ok (Some l).

(** InverseTrigUSub.check and forward, transforms.py:494-531 (without the look at the last heuristic and
    without the Simplify step that follows, see Search.v) *)
Definition inv_query (f : trig) (v : string) : res expr :=
  q <- op_pow fk (ESym v) (ERat 2);;
  match f with Sin => op_sub fk (ERat 1) q | _ => op_add fk (ERat 1) q end.
Definition inv_hit (f : trig) (v : string) (e : expr) : res bool :=
  q <- inv_query f v;;
  if Nat.ltb 0 (countE q e) then Ok true
  else q' <- op_mul fk q (ERat (-1));; Ok (Nat.ltb 0 (countE q' e)).
Definition inv_key (v : string) (e : expr) : res (option trig) :=
  b <- inv_hit Sin v e;;
  if b : bool then Ok (Some Sin) else b' <- inv_hit Tan v e;; Ok (if b' : bool then Some Tan else None).
Definition inv_usub (v y : string) (e : expr) : res (option (expr * expr)) :=
  o <- inv_key v e;;
  match o with
  | None => Ok None
  | Some f =>
      d <- match f with
           | Sin => k_trig fk Cos (ESym y)
           | _ => s <- k_trig fk Sec (ESym y);; op_pow fk s (ERat 2)
           end;;
      x <- k_trig fk f (ESym y);;
      g0 <- replaceE fk e (ESym v) x;; g <- op_mul fk g0 d;;
      u <- k_trig fk (match f with Sin => Asin | _ => Atan end) (ESym v);;
      r <- usub v y e u g;; Ok (Some r)
  end.

(** Simplify.check, transforms.py:1088-1099 *)
Definition simplify_step (e : expr) : res (option expr) :=
  '(a, hit) <- kinder_replace fk (pythagorean fk) e;; Ok (if hit : bool then Some a else None).

(** GenericUSub.check and forward, transforms.py:941-966.  [a == b / c] on small ints is [a * c = b];
    c = 0 raises ZeroDivisionError. *)
Fixpoint generic_go (v : string) (pre l : list expr) : res (option expr) :=
  match l with
  | [] => Ok None
  | t :: r =>
      o <- table fk v t;;
      match o with
      | None => generic_go v (pre ++ [t]) r
      | Some F =>
          '(u, _) <- rcf F;;
          rest <- k_prod fk (pre ++ r);;
          let c := countE (ESym v) u in
          if Nat.eqb c 0 then Raise ZeroDivisionError
          else if Nat.eqb (countE u rest * c) (countE (ESym v) rest) then Ok (Some u)
          else generic_go v (pre ++ [t]) r
      end
  end.
Definition generic_usub (n : nat) (v y : string) (e : expr) : res (option (expr * expr)) :=
  match e with
  | EProd ts =>
      o <- generic_go v [] ts;;
      match o with
      | None => Ok None
      | Some u =>
          du <- diffE fk n v u;; q <- op_div fk e du;; g <- replaceE fk q u (ESym y);;
          r <- usub v y e u g;; Ok (Some r)
      end
  | _ => Ok None
  end.

(** CompleteTheSquare.check and forward, transforms.py:972-1020 *)
Definition cts_condition (n : nat) (v : string) (e : expr) : res bool :=
  match e with
  | EPow b x =>
      if isq x (-1 # 2) || isq x (-1) then
        o <- catchA (to_const_polynomial fk n v b);;
        Ok (match o with Some [_; c1; _] => negb (isq c1 0) | _ => false end)
      else Ok false
  | _ => Ok false
  end.
(** general_contains with a condition that can fail, regex.py:384-387 *)
Fixpoint gcontainsM (p : expr -> res bool) (e : expr) : res bool :=
  let fix any (l : list expr) : res bool :=
    match l with [] => Ok false | t :: r => b <- gcontainsM p t;; if b : bool then Ok true else any r end in
  b <- p e;;
  if b : bool then Ok true
  else
    match e with
    | ESum ts | EProd ts => any ts
    | EPow b x => any [b; x]
    | ELog i b => any [i; b]
    | ETrig _ i | EAbs i => any [i]
    | _ => Ok false
    end.
Definition cts_perform (n : nat) (v : string) (e : expr) : res expr :=
  p <- to_const_polynomial fk n v e;;
  match p with
  | [c0; c1; c2] =>
      n0 <- op_div fk c0 c2;; n1 <- op_div fk c1 c2;; _ <- op_div fk c2 c2;;
      h <- op_div fk n1 (ERat 2);; h2 <- op_pow fk h (ERat 2);; d <- op_sub fk n0 h2;;
      a <- op_add fk (ESym v) h;; s <- sqrtE fk d;; q <- op_div fk a s;; q2 <- op_pow fk q (ERat 2);;
      w <- op_add fk q2 (ERat 1);; z <- op_mul fk w d;; op_mul fk z c2
  | _ => Raise AssertionError
  end.
Definition complete_square (n : nat) (v : string) (e : expr) : res (option expr) :=
  b <- gcontainsM (cts_condition n v) e;;
  if b : bool then
    r <- replace_factory fk
           (fun t => o <- catchA (to_const_polynomial fk n v t);; Ok (match o with Some [_; _; _] => true | _ => false end))
           (cts_perform n v) e;;
    Ok (Some r)
  else Ok None.

(** RewritePythagorean.condition and perform, transforms.py:1034-1051 *)
Definition pyth_cond (e : expr) : bool :=
  match e with
  | EPow (ETrig (Sin | Cos) _) (ERat q) => negb (Qle_bool q 1) && qisint q && Z.odd (numer q)
  | _ => false
  end.
Definition pyth_perform (e : expr) : res expr :=
  match e with
  | EPow (ETrig f i) x =>
      a <- op_sub fk x (ERat 1);; n <- op_div fk a (ERat 2);;
      t <- k_trig fk (match f with Sin => Cos | _ => Sin end) i;;
      t2 <- op_pow fk t (ERat 2);; m <- op_sub fk (ERat 1) t2;; p <- op_pow fk m n;;
      b <- k_trig fk f i;; op_mul fk p b
  | _ => Raise AttributeError
  end.
(** RewritePythagorean.forward, transforms.py:1059-1078: the result and is_hit *)
Fixpoint pyth_rewrite (e : expr) : res (expr * bool) :=
  let fix go (l : list expr) : res (list expr * bool) :=
    match l with
    | [] => Ok ([], false)
    | t :: r => '(t', h) <- pyth_rewrite t;; '(r', h') <- go r;; Ok (t' :: r', h || h')
    end in
  if pyth_cond e then r <- pyth_perform e;; Ok (r, true)
  else match e with
       | EProd ts => '(ts', h) <- go ts;; p <- k_prod fk ts';; Ok (p, h)
       | _ => Ok (e, false)
       end.
Definition rewrite_pyth (e : expr) : res (option expr) :=
  '(a, hit) <- pyth_rewrite e;; Ok (if hit : bool then Some a else None).
End Trans.
