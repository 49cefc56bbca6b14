(** * Objects: Python objects.  The rest of the development treats expressions as values; in /repo they are objects
    that can be shared, that are changed in place by three pieces of code, and that carry caches.  This file models
    the store of objects, those three pieces of code and the cached methods, one history of calls at a time. *)
From Verif Require Export Search.
Local Open Scope nat_scope.

(** The fields of one object: addresses of other objects.  Numbers, symbols and wildcards have no object fields. *)
Inductive shape :=
| SLeaf (e : expr) | SSum (ts : list nat) | SProd (ts : list nat) | SPow (b x : nat)
| SLog (i b : nat) | STrig (f : trig) (i : nat) | SAbs (i : nat).

(** The cached methods: symbols() expr.py:244-252, get_anys regex.py:89-104, nesting(e, v) 28-43, expandable() 187-190,
    expand() 192-195, numerator_denominator 1236-1263, _deconstruct_prod 1033-1061, deconstruct_power 1064-1076,
    remove_const_factor 2082-2105. *)
Inductive query :=
| QSymbols | QAnys | QNesting (v : option string) | QExpandable | QExpand | QNumDen | QDeconProd | QDeconPow | QConst.
Inductive ans :=
| ANames (l : list string) | ANat (n : nat) | ABool (b : bool) | AExpr (e : expr) | APair (a b : expr)
| ALists (a b : list expr).

Record obj := mkobj { o_sh : shape; o_cache : list (query * ans) }.
Definition store := list obj.

Definition skids (s : shape) : list nat :=
  match s with
  | SLeaf _ => []
  | SSum ts | SProd ts => ts
  | SPow b x => [b; x]
  | SLog i b => [i; b]
  | STrig _ i | SAbs i => [i]
  end.

(** ** The expression an object stands for; None if it is its own descendant. *)
Fixpoint seqo {A} (l : list (option A)) : option (list A) :=
  match l with
  | [] => Some []
  | Some x :: r => match seqo r with Some xs => Some (x :: xs) | None => None end
  | None :: _ => None
  end.
Definition build_shape (s : shape) (es : list expr) : option expr :=
  match s, es with
  | SLeaf e, [] => Some e
  | SSum _, _ => Some (ESum es)
  | SProd _, _ => Some (EProd es)
  | SPow _ _, [b; x] => Some (EPow b x)
  | SLog _ _, [i; b] => Some (ELog i b)
  | STrig f _, [i] => Some (ETrig f i)
  | SAbs _, [i] => Some (EAbs i)
  | _, _ => None
  end.
Fixpoint denf (n : nat) (h : store) (a : nat) : option expr :=
  match n with
  | O => None
  | S n' =>
      match nth_error h a with
      | None => None
      | Some o =>
          match seqo (map (denf n' h) (skids (o_sh o))) with
          | Some es => build_shape (o_sh o) es
          | None => None
          end
      end
  end.
Definition den (h : store) (a : nat) : option expr := denf (S (List.length h)) h a.

(** ** Code that changes an object in place *)
Fixpoint upd_obj (h : store) (a : nat) (f : obj -> obj) : store :=
  match h, a with
  | [], _ => []
  | o :: r, O => f o :: r
  | o :: r, S a' => o :: upd_obj r a' f
  end.
Definition set_sh (h : store) (a : nat) (s : shape) : store := upd_obj h a (fun o => mkobj s (o_cache o)).
Definition set_cache (h : store) (a : nat) (c : list (query * ans)) : store := upd_obj h a (fun o => mkobj (o_sh o) c).

(** isinstance(a, cls) for the two associative classes ([true]: Sum, [false]: Prod), with the terms *)
Definition terms_if (cls : bool) (h : store) (a : nat) : option (list nat) :=
  match nth_error h a with
  | Some o => match o_sh o, cls with SSum ts, true => Some ts | SProd ts, false => Some ts | _, _ => None end
  | None => None
  end.
Definition mk_terms (cls : bool) (ts : list nat) : shape := if cls then SSum ts else SProd ts.

(** Associative._flatten_terms and _flatten, expr.py:292-310: every operand of the class is itself flattened in place,
    recursively.  [n] bounds the recursion depth. *)
Fixpoint flats (f : store -> nat -> store * list nat) (h : store) (ts : list nat) : store * list nat :=
  match ts with
  | [] => (h, [])
  | t :: r => let '(h1, l1) := f h t in let '(h2, l2) := flats f h1 r in (h2, l1 ++ l2)
  end.
Fixpoint flat1 (cls : bool) (n : nat) (h : store) (t : nat) : store * list nat :=
  match n with
  | O => (h, [t])
  | S n' =>
      match terms_if cls h t with
      | Some ts => let '(h', l) := flats (flat1 cls n') h ts in (set_sh h' t (mk_terms cls l), l)
      | None => (h, [t])
      end
  end.
Definition flatten (cls : bool) (h : store) (ts : list nat) : store * list nat :=
  flats (flat1 cls (S (List.length h))) h ts.

(** Prod([t], skip_checks=True), Sum([t], skip_checks=True) with [t] of that class: __new__ returns [t], so that
    __init__ runs on it, sets its terms to [t] itself and then fails the assertion len(terms) >= 2 (expr.py:1148-1153,
    1178-1182, 881-886, 903-910, 282-283). *)
Definition skip_one (cls : bool) (h : store) (t : nat) : store :=
  match terms_if cls h t with Some _ => set_sh h t (mk_terms cls [t]) | None => h end.

(** log(i, b) when __new__ returns the exponent [t] of [i] and [t] is a log: __init__ runs on [t] with the arguments
    of the outer call (expr.py:1588-1610). *)
Definition log_init (h : store) (t i b : nat) : store :=
  match nth_error h t with
  | Some o => match o_sh o with SLog _ _ => set_sh h t (SLog i b) | _ => h end
  | None => h
  end.

(** ** Cached methods *)
Section Queries.
Context (fk : fkern) (n : nat).

(** What the methods compute without caches. *)
Definition answer (q : query) (e : expr) : res ans :=
  match q with
  | QSymbols => Ok (ANames (symbols e))
  | QAnys => Ok (ANames (nodup string_dec (any_names e)))
  | QNesting v => k <- nestingc v e;; Ok (ANat k)
  | QExpandable => b <- expandable fk e;; Ok (ABool b)
  | QExpand => r <- expandE fk n e;; Ok (AExpr r)
  | QNumDen => match e with EProd ts => '(a, b) <- numdenF fk ts;; Ok (APair a b) | _ => Raise AttributeError end
  | QDeconProd => let '(a, b) := decon_prod e in Ok (ALists a b)
  | QDeconPow => let '(a, b) := decon_pow e in Ok (APair a b)
  | QConst => '(a, b) <- rcf e;; Ok (APair a b)
  end.

(** Where the answer is kept: nesting uses a dict whose key is the name of the variable, or "" without a variable
    (expr.py:40-43; a Symbol cannot have an empty name, 786-787); every other method has its own attribute. *)
Definition key (q : query) : query :=
  match q with QNesting (Some ""%string) => QNesting None | _ => q end.
Definition query_eq_dec (a b : query) : {a = b} + {a <> b}.
Proof. decide equality. decide equality. apply string_dec. Defined.
Fixpoint find_ans (q : query) (c : list (query * ans)) : option ans :=
  match c with
  | [] => None
  | (k, r) :: c' => if query_eq_dec k q then Some r else find_ans q c'
  end.

Definition remember (h : store) (a : nat) (q : query) (r : ans) : store :=
  match nth_error h a with
  | Some o => set_cache h a ((key q, r) :: o_cache o)
  | None => h
  end.

Fixpoint thread {A} (f : store -> nat -> store * A) (h : store) (l : list nat) : store * list A :=
  match l with
  | [] => (h, [])
  | a :: r => let '(h1, x) := f h a in let '(h2, xs) := thread f h1 r in (h2, x :: xs)
  end.

(** symbols() and get_anys collect the (cached) answers of the children; the other methods are computed from the
    expression.  (expandable() also asks its children; their answers are the ones it would compute.)  [own] is the
    answer of a symbol (wildcard) itself. *)
Definition own (q : query) (s : shape) : list string :=
  match q, s with
  | QSymbols, SLeaf (ESym v) => [v]
  | QAnys, SLeaf (EAny v) => [v]
  | _, _ => []
  end.
Definition names_of (r : res ans) : list string := match r with Ok (ANames l) => l | _ => [] end.
Fixpoint call (m : nat) (q : query) (h : store) (a : nat) : store * res ans :=
  match m with
  | O => (h, Stop OutOfFuel)
  | S m' =>
      match nth_error h a with
      | None => (h, Stop Unmodelled)
      | Some o =>
          match find_ans (key q) (o_cache o) with
          | Some r => (h, Ok r)
          | None =>
              match q with
              | QSymbols | QAnys =>
                  let '(h', rs) := thread (call m' q) h (skids (o_sh o)) in
                  let r := ANames (nodup string_dec (own q (o_sh o) ++ List.concat (map names_of rs))) in
                  (remember h' a q r, Ok r)
              | _ =>
                  match den h a with
                  | None => (h, Stop OutOfFuel)
                  | Some e =>
                      match answer q e with
                      | Ok r => (remember h a q r, Ok r)
                      | x => (h, x)
                      end
                  end
              end
          end
      end
  end.

(** ** Histories *)
Inductive step :=
| New (s : shape)                      (* an object is created *)
| Operands (cls : bool) (ts : list nat) (* Sum(ts) or Prod(ts) is called: the operands are flattened *)
| Skip (cls : bool) (t : nat)          (* Sum([t], skip_checks=True), Prod([t], skip_checks=True) *)
| LogInit (t i b : nat)                (* log(i, b) returns the object t *)
| Reinit (a : nat)                     (* __new__ returns the object a of the same class: __post_init__ runs again
                                          and empties the nesting cache, expr.py:123 *)
| Query (q : query) (a : nat).

Definition not_nesting (p : query * ans) : bool := match fst p with QNesting _ => false | _ => true end.
Definition exec1 (h : store) (s : step) : store :=
  match s with
  | New s => h ++ [mkobj s []]
  | Operands cls ts => fst (flatten cls h ts)
  | Skip cls t => skip_one cls h t
  | LogInit t i b => log_init h t i b
  | Reinit a => upd_obj h a (fun o => mkobj (o_sh o) (filter not_nesting (o_cache o)))
  | Query q a => fst (call (S (List.length h)) q h a)
  end.
Definition exec (h : store) (l : list step) : store := fold_left exec1 l h.
(** the value returned by a query *)
Definition reply (h : store) (q : query) (a : nat) : res ans := snd (call (S (List.length h)) q h a).
End Queries.
