(** * Search: the integration search (src/simpy/integration.py, Node and the tree part of
    src/simpy/transforms.py) as an executable model.

    The node objects live in a heap (a list, nodes are numbered in order of creation, node 0 is the
    root); a child dropped by Node.add_child never enters the heap.  The state is the heap and the
    number of intermediate variables created so far; [nm] names them (generate_intermediate_var,
    transforms.py:1136-1137, draws random names: [nm] is arbitrary).  [nd_only] is not in /repo: it
    records which children may write back after the cyclic by-parts step and is only read by the
    guards of strict mode (DESIGN.md, section 3). *)
From Coquelicot Require Import Coquelicot.
From Verif Require Export TransSound.
Close Scope R_scope.
Open Scope nat_scope.

(** Node.type, transforms.py:66 *)
Inductive ntype := AND | OR | UNSET | SOLUTION | FAILURE.
(** the transforms; substitutions store [_u], PullConstant the constant *)
Inductive ukind := UTrig2 | UInvTrig | UPoly | ULin | UGen.
Inductive ikind := IPolyDiv | IExpand | IRewTrig | IPts | IByParts | IPartial | IComplete | IRewPyth | ISimp.
Inductive tr := TPull (c : expr) | TAdd | TUSub (k : ukind) (u : expr) | TId (k : ikind).

(** class Node, transforms.py:44-75 *)
Record node := {
  nd_e : expr; nd_v : string; nd_t : option tr; nd_p : option nat;
  nd_ty : ntype; nd_sol : option expr; nd_fill : bool; nd_kids : list nat;
  nd_only : option (list nat) }.
Definition heap := list node.
Definition st := (heap * nat)%type.

Definition get (h : heap) (i : nat) : res node :=
  match nth_error h i with Some q => Ok q | None => Raise AttributeError end.
Fixpoint setn (h : heap) (i : nat) (f : node -> node) : heap :=
  match h, i with
  | [], _ => []
  | q :: r, O => f q :: r
  | q :: r, S i' => q :: setn r i' f
  end.
Definition set_ty (t : ntype) (q : node) : node :=
  {| nd_e := nd_e q; nd_v := nd_v q; nd_t := nd_t q; nd_p := nd_p q; nd_ty := t; nd_sol := nd_sol q;
     nd_fill := nd_fill q; nd_kids := nd_kids q; nd_only := nd_only q |}.
Definition set_sol (s : expr) (q : node) : node :=
  {| nd_e := nd_e q; nd_v := nd_v q; nd_t := nd_t q; nd_p := nd_p q; nd_ty := nd_ty q; nd_sol := Some s;
     nd_fill := nd_fill q; nd_kids := nd_kids q; nd_only := nd_only q |}.
Definition set_only (l : list nat) (q : node) : node :=
  {| nd_e := nd_e q; nd_v := nd_v q; nd_t := nd_t q; nd_p := nd_p q; nd_ty := nd_ty q; nd_sol := nd_sol q;
     nd_fill := nd_fill q; nd_kids := nd_kids q; nd_only := Some l |}.
Definition add_kids (l : list nat) (q : node) : node :=
  {| nd_e := nd_e q; nd_v := nd_v q; nd_t := nd_t q; nd_p := nd_p q; nd_ty := nd_ty q; nd_sol := nd_sol q;
     nd_fill := nd_fill q; nd_kids := nd_kids q ++ l; nd_only := nd_only q |}.

(** Node(e, v, t, p) *)
Definition mkn (e : expr) (v : string) (t : tr) (p : nat) : node :=
  {| nd_e := e; nd_v := v; nd_t := Some t; nd_p := Some p; nd_ty := UNSET; nd_sol := None;
     nd_fill := false; nd_kids := []; nd_only := None |}.
(** Node(e, v, t, p, type="SOLUTION", solution=s, is_filler=True) *)
Definition mkfill (e : expr) (v : string) (t : tr) (p : nat) (s : expr) (only : option (list nat)) : node :=
  {| nd_e := e; nd_v := v; nd_t := Some t; nd_p := Some p; nd_ty := SOLUTION; nd_sol := Some s;
     nd_fill := true; nd_kids := []; nd_only := only |}.
(** Node(e, v) *)
Definition mkroot (e : expr) (v : string) : node :=
  {| nd_e := e; nd_v := v; nd_t := None; nd_p := None; nd_ty := UNSET; nd_sol := None;
     nd_fill := false; nd_kids := []; nd_only := None |}.

(** _parents, transforms.py:694-698; a parent has a smaller number than its children *)
Fixpoint anc (fuel : nat) (h : heap) (i : nat) : list nat :=
  match fuel with
  | O => []
  | S f => i :: match nth_error h i with
                | Some q => match nd_p q with Some p => anc f h p | None => [] end
                | None => []
                end
  end.
Definition parents (h : heap) (i : nat) : list nat := anc (S i) h i.

(** the test of Node.add_child, transforms.py:81-85: [c] would be skipped as a child of [p] *)
Definition dropped (h : heap) (p : nat) (c : node) : bool :=
  negb (nd_fill c) &&
  existsb (fun j => match nth_error h j with
                    | Some q => eq_with_var (nd_v q) (nd_v c) (nd_e q) (nd_e c)
                    | None => false end) (parents h p).

(** appends nodes to the heap as the last children of [p] *)
Definition append (h : heap) (p : nat) (cs : list node) : heap :=
  setn (h ++ cs) p (add_kids (seq (List.length h) (List.length cs))).

Definition is_add (q : node) : bool := match nd_t q with Some TAdd => true | _ => false end.
Definition no_add (h : heap) (q : node) : bool :=
  forallb (fun k => match nth_error h k with Some m => negb (is_add m) | None => false end) (nd_kids q).
Definition regular (q : node) : bool := match nd_only q with None => true | Some _ => false end.
Definition sealed (q : node) : bool := match nd_only q with Some [] => true | _ => false end.
Definition isnil {A} (l : list A) : bool := match l with [] => true | _ => false end.

(** ** Node.leaves, is_solved, is_failed, is_finished, unfinished_*: transforms.py:96-167.  The number of
    nodes bounds the depth. *)
Fixpoint leaves_go (fuel : nat) (h : heap) (i : nat) : res (list nat) :=
  match fuel with
  | O => Stop OutOfFuel
  | S f =>
      q <- get h i;;
      match nd_kids q with [] => Ok [i] | ks => l <- mapM (leaves_go f h) ks;; Ok (List.concat l) end
  end.
Fixpoint solved_go (fuel : nat) (h : heap) (i : nat) : res bool :=
  match fuel with
  | O => Stop OutOfFuel
  | S f =>
      q <- get h i;;
      match nd_ty q with
      | SOLUTION => Ok true
      | ty =>
          if isnil (nd_kids q) then Ok false
          else match ty with
               | AND | UNSET => allM (solved_go f h) (nd_kids q)
               | OR => anyM (solved_go f h) (nd_kids q)
               | _ => Ok false
               end
      end
  end.
Fixpoint failed_go (fuel : nat) (h : heap) (i : nat) : res bool :=
  match fuel with
  | O => Stop OutOfFuel
  | S f =>
      q <- get h i;;
      match nd_ty q with
      | FAILURE => Ok true
      | ty =>
          if isnil (nd_kids q) then Ok false
          else match ty with
               | OR => allM (failed_go f h) (nd_kids q)
               | _ => anyM (failed_go f h) (nd_kids q)
               end
      end
  end.
Definition leaves (h : heap) (i : nat) : res (list nat) := leaves_go (S (List.length h)) h i.
Definition solved (h : heap) (i : nat) : res bool := solved_go (S (List.length h)) h i.
Definition failed (h : heap) (i : nat) : res bool := failed_go (S (List.length h)) h i.
Definition finished (h : heap) (i : nat) : res bool := b <- solved h i;; if b : bool then Ok true else failed h i.
Definition unfinished_leaves (h : heap) (i : nat) : res (list nat) :=
  l <- leaves h i;; filterM (fun j => b <- finished h j;; Ok (negb b)) l.
Definition unfinished_kids (h : heap) (i : nat) : res (list nat) :=
  q <- get h i;; filterM (fun j => b <- finished h j;; Ok (negb b)) (nd_kids q).

(** _get_last_heuristic_transform, transforms.py:360-377, skipping the transforms in [ex] *)
Fixpoint last_tr_go (fuel : nat) (ex : tr -> bool) (h : heap) (i : nat) : option tr :=
  match fuel with
  | O => None
  | S f =>
      match nth_error h i with
      | Some q =>
          match nd_t q with
          | Some t => if ex t then match nd_p q with Some p => last_tr_go f ex h p | None => None end else Some t
          | None => None
          end
      | None => None
      end
  end.
Definition last_tr (ex : tr -> bool) (h : heap) (i : nat) : option tr := last_tr_go (S i) ex h i.
Definition ex_pa (t : tr) : bool := match t with TPull _ | TAdd => true | _ => false end.
Definition ex_pae (t : tr) : bool := match t with TPull _ | TAdd | TId IExpand => true | _ => false end.
Definition is_id (k : ikind) (o : option tr) : bool :=
  match o, k with
  | Some (TId IExpand), IExpand | Some (TId IRewTrig), IRewTrig | Some (TId IByParts), IByParts
  | Some (TId IComplete), IComplete => true
  | _, _ => false
  end.

Section Search.
Context (fk : fkern) (rng : string -> expr -> bool) (nm : nat -> string) (n : nat).
Let strictg {A} (b : bool) (r : res A) : res A := guard (negb (k_strict fk) || b) r.

(** Node.add_child, transforms.py:81-86 *)
Definition add1 (h : heap) (p : nat) (c : node) : res heap :=
  q <- get h p;;
  strictg (regular q && no_add h q) (Ok (if dropped h p c then h else append h p [c])).

(** Additivity.forward, transforms.py:340-342 *)
Definition additivity (h : heap) (p : nat) (v : string) (ts : list expr) : res heap :=
  q <- get h p;;
  let keep := filter (fun c => negb (dropped h p c)) (map (fun t => mkn t v TAdd p) ts) in
  strictg (regular q && isnil (nd_kids q) && Nat.eqb (List.length keep) (List.length ts))
    (Ok (append (setn h p (set_ty AND)) p keep)).

(** one child that rewrites the integrand *)
Definition add_id (k : ikind) (h : heap) (i : nat) (v : string) (o : option expr) : res heap :=
  match o with Some e => add1 h i (mkn e v (TId k) i) | None => Ok h end.

(** The loop body of _integrate_safely, integration.py:304-308: the first safe transform that applies *)
Definition safe_step (s : st) (i : nat) : res st :=
  let '(h, x) := s in
  q <- get h i;;
  let e := nd_e q in
  let v := nd_v q in
  match e with
  | ESum ts => h' <- additivity h i v ts;; Ok (h', x)
  | _ =>
      o <- pull_const fk v e;;
      match o with
      | Some (c, r) => h' <- add1 h i (mkn r v (TPull c) i);; Ok (h', x)
      | None =>
          o <- partial_fractions fk n v e;;
          match o with
          | Some r => h' <- add_id IPartial h i v (Some r);; Ok (h', x)
          | None =>
              o <- poly_division fk n v e;;
              match o with
              | Some r => h' <- add_id IPolyDiv h i v (Some r);; Ok (h', x)
              | None =>
                  o <- (if is_id IComplete (last_tr ex_pa h i) then Ok None else expand_step fk n e);;
                  match o with
                  | Some r => h' <- add_id IExpand h i v (Some r);; Ok (h', x)
                  | None =>
                      o <- linear_usub fk rng n v (nm x) e;;
                      match o with
                      | Some (u, g) => h' <- add1 h i (mkn g (nm x) (TUSub ULin u) i);; Ok (h', S x)
                      | None => Ok (h, x)
                      end
                  end
              end
          end
      end
  end.

(** _integrate_safely, integration.py:300-310 *)
Fixpoint safely (k : nat) (s : st) (i : nat) : res st :=
  match k with
  | O => Stop OutOfFuel
  | S k' => s1 <- safe_step s i;; q <- get (fst s1) i;; foldM (safely k') (nd_kids q) s1
  end.

(** _check_if_node_solvable, integration.py:13-20 *)
Definition check_solvable (h : heap) (i : nat) : res heap :=
  q <- get h i;;
  o <- table fk (nd_v q) (nd_e q);;
  match o with
  | Some a => strictg (regular q) (Ok (setn (setn h i (set_ty SOLUTION)) i (set_sol a)))
  | None => Ok h
  end.

(** Transform.backward of the subclasses: transforms.py:189-193, 216-218, 251-253, 350-357 and the
    identical methods of the rewriting transforms *)
Definition allowed (q : node) (k : nat) : bool :=
  match nd_only q with None => true | Some l => existsb (Nat.eqb k) l end.
Fixpoint sols (h : heap) (ks : list nat) : res (list expr) :=
  match ks with
  | [] => Ok []
  | k :: r => q <- get h k;;
              match nd_sol q with Some s => l <- sols h r;; Ok (s :: l) | None => Raise ValueError end
  end.
Definition backward (h : heap) (i : nat) : res heap :=
  q <- get h i;;
  match nd_sol q, nd_t q, nd_p q with
  | None, _, _ => Raise ValueError
  | Some F, Some t, Some p =>
      m <- get h p;;
      r <- match t with
           | TPull c => op_mul fk c F
           | TAdd => l <- sols h (nd_kids m);; k_sum fk l
           | TUSub _ u => strictg (negb (contains (nd_v m) F)) (replaceE fk F (ESym (nd_v q)) u)
           | TId _ => Ok F
           end;;
      strictg (allowed m i) (Ok (setn h p (set_sol r)))
  | _, _, _ => Raise AttributeError
  end.

(** [try: .. except ValueError: break] *)
Definition catchV {A} (r : res A) : res (option A) :=
  match r with
  | Ok a => Ok (Some a)
  | Raise ValueError => Ok None
  | Raise e => Raise e
  | Stop s => Stop s
  end.

(** the while loop of _go_backwards, integration.py:287-294 *)
Fixpoint climb (fuel : nat) (h : heap) (i : nat) : res heap :=
  match fuel with
  | O => Stop OutOfFuel
  | S f =>
      q <- get h i;;
      match nd_p q with
      | None => Ok h
      | Some p => o <- catchV (backward h i);; match o with Some h' => climb f h' p | None => Ok h end
      end
  end.
(** _go_backwards, integration.py:274-297: the heap and root.solution *)
Definition go_backwards (h : heap) : res (heap * expr) :=
  b <- solved h 0;;
  if b : bool then
    l <- leaves h 0;;
    ls <- filterM (solved h) l;;
    h' <- foldM (fun h i => climb (S i) h i) ls h;;
    q <- get h' 0;;
    match nd_sol q with Some s => Ok (h', s) | None => Raise ValueError end
  else Raise ValueError.

(** Integration.integrate_without_heuristics, integration.py:130-146 *)
Definition iwh (x : nat) (e : expr) (v : string) : res (option expr * nat) :=
  '(h, x1) <- safely n ([mkroot e v], x) 0;;
  l <- unfinished_leaves h 0;;
  h1 <- foldM (fun h i => h' <- check_solvable h i;; q <- get h' i;;
                 Ok (match nd_ty q with SOLUTION => h' | _ => setn h' i (set_ty FAILURE) end)) l h;;
  b <- failed h1 0;;
  if b : bool then Ok (None, x1) else '(_, s) <- go_backwards h1;; Ok (Some s, x1).

(** *** ByParts, transforms.py:701-865 *)
Definition is_bp (h : heap) (i : nat) : bool :=
  match nth_error h i with Some q => is_id IByParts (nd_t q) | None => false end.
(** _get_last_byparts_parent, transforms.py:716-724 *)
Fixpoint last_bp_go (h : heap) (l : list nat) : option nat :=
  match l with
  | [] => None
  | j :: r =>
      match nth_error h j with
      | Some q => match nd_t q with
                  | Some (TId IByParts) => Some j
                  | Some (TPull _) | Some TAdd => last_bp_go h r
                  | _ => None
                  end
      | None => None
      end
  end.
Definition last_bp (h : heap) (i : nat) : option nat := last_bp_go h (parents h i).

(** the new integrand -u' v: lines 734, 805 *)
Definition bp_i2 (du w : expr) : res expr := m <- op_mul fk du w;; op_mul fk m (ERat (-1)).

(** _check and _parents_exprs_check, transforms.py:726-741, 765-777: (u, u', v) and the name counter *)
Definition bp_try (h : heap) (x i : nat) (v : string) (e a b : expr) : res (option (expr * expr * expr) * nat) :=
  p <- is_polynomial fk n v b;;
  if p : bool then Ok (None, x)
  else
    du <- diffE fk n v a;;
    '(o, x1) <- iwh x b v;;
    match o with
    | None => Ok (None, x1)
    | Some w =>
        i2 <- bp_i2 du w;;
        f <- op_div (k_raw fk) i2 e;;
        if isq f 1 then Ok (None, x1)
        else
          b <- anyM (fun j => q <- get h j;; k_eq fk (nd_e q) i2) (filter (is_bp h) (parents h i));;
          Ok (if b : bool then None else Some (a, du, w), x1)
    end.
(** ByParts.check, transforms.py:746-780 *)
Definition bp_check (h : heap) (x i : nat) (v : string) (e : expr) : res (option (expr * expr * expr) * nat) :=
  match e with
  | EProd [a; b] =>
      '(o, x1) <- bp_try h x i v e a b;;
      match o with Some r => Ok (Some r, x1) | None => bp_try h x1 i v e b a end
  | ELog inner _ => if is_var v inner then du <- diffE fk n v e;; Ok (Some (e, du, ESym v), x) else Ok (None, x)
  | ETrig f inner =>
      if is_inverse f && is_var v inner then du <- diffE fk n v e;; Ok (Some (e, du, ESym v), x) else Ok (None, x)
  | _ => Ok (None, x)
  end.

(** _get_first_factor, transforms.py:782-788: the factor, and k1 if the node is k1's child *)
Definition first_factor (h : heap) (m : node) (i : nat) : res (expr * option nat) :=
  match nd_kids m with
  | _ :: k1 :: _ =>
      if Nat.eqb k1 i then Ok (ERat 1, None)
      else
        q <- get h i;;
        match nd_t q with
        | Some (TPull c) =>
            q1 <- get h k1;;
            match nd_kids q1 with
            | k :: _ => if Nat.eqb k i then Ok (c, Some k1) else Raise ValueError
            | [] => Raise ValueError
            end
        | _ => Raise ValueError
        end
  | _ => Raise IndexError
  end.

(** the general case of ByParts.forward, transforms.py:846-861 *)
Definition bp_funky (h : heap) (i : nat) (v : string) (e c1 i2 : expr) : res heap :=
  q <- get h i;;
  let f := List.length h in
  let funky := {| nd_e := e; nd_v := v; nd_t := Some (TId IByParts); nd_p := Some i; nd_ty := AND;
                  nd_sol := None; nd_fill := true; nd_kids := []; nd_only := None |} in
  strictg (regular q && no_add h q)
  (let h1 := append h i [funky] in
   let k1 := mkn i2 v TAdd f in
   let d := dropped h1 f k1 in
   strictg (negb d)
   (Ok (append h1 f (mkfill e v TAdd f c1 (Some []) :: if d then [] else [k1])))).

(** the cyclic case over two levels, transforms.py:819-843; [mi] is the funky node above *)
Definition no_sol (q : node) : bool := match nd_sol q with None => true | Some _ => false end.
Definition bp_cyclic2 (h : heap) (i mi : nat) (v : string) (e c1 i2 : expr) : res heap :=
  m <- get h mi;;
  '(ff, k1) <- first_factor h m i;;
  sf <- op_div fk i2 (nd_e m);;
  f <- op_mul fk ff sf;;
  match nd_kids m with
  | [] => Raise AttributeError
  | k0 :: _ =>
      q0 <- get h k0;;
      match nd_sol q0 with
      | None => Raise TypeError
      | Some s0 =>
          d <- op_sub fk (ERat 1) f;; s0' <- op_div fk s0 d;; s <- op_div fk c1 d;;
          q <- get h i;;
          q1 <- get h (match k1 with Some k => k | None => i end);;
          strictg (negb (contains v sf) && negb (contains v d) && regular q && no_sol q && no_add h q &&
                   regular q1 && no_sol q1 && regular m && sealed q0 && is_add q0 && Nat.eqb (List.length (nd_kids m)) 2)
          (let ns := List.length h in
           let h1 := setn h k0 (set_sol s0') in
           let h2 := setn (append h1 i [mkfill e v (TId IByParts) i s (Some [])]) i (set_ty OR) in
           let h3 := setn h2 i (set_only [ns]) in
           let h4 := match k1 with Some k => setn h3 k (set_only [i]) | None => h3 end in
           b <- solved h4 mi;;
           if b : bool then Ok h4 else Raise AssertionError)
      end
  end.

(** ByParts.forward, transforms.py:790-861.  The factors are first computed without domain guard. *)
Definition bp_forward (h : heap) (i : nat) (v : string) (e : expr) (t : expr * expr * expr) : res heap :=
  let '(u, du, w) := t in
  c1 <- op_mul fk u w;;
  i2 <- bp_i2 du w;;
  f0 <- op_div (k_raw fk) i2 e;;
  if negb (contains v f0) then
    f <- op_div fk i2 e;;
    d <- op_sub fk (ERat 1) f;; s <- op_div fk c1 d;;
    q <- get h i;;
    strictg (negb (contains v f) && negb (contains v d) && regular q && no_add h q)
      (Ok (setn (append h i [mkfill e v (TId IByParts) i s None]) i (set_ty OR)))
  else
    match last_bp h i with
    | None => bp_funky h i v e c1 i2
    | Some mi =>
        m <- get h mi;;
        sf0 <- op_div (k_raw fk) i2 (nd_e m);;
        if contains v sf0 then bp_funky h i v e c1 i2
        else bp_cyclic2 h i mi v e c1 i2
    end.

(** *** The heuristics in order, transforms.py:1115-1125 and integration.py:313-320 *)
Definition h_usub (k : ukind) (s : st) (i : nat) (o : option (expr * expr)) : res st :=
  let '(h, x) := s in
  match o with
  | Some (u, g) => h' <- add1 h i (mkn g (nm x) (TUSub k u) i);; Ok (h', S x)
  | None => Ok s
  end.
Definition h_byparts (s : st) (i : nat) (v : string) (e : expr) : res st :=
  let '(h, x) := s in
  '(o, x1) <- bp_check h x i v e;;
  match o with
  | Some t => h' <- bp_forward h i v e t;; Ok (h', x1)
  | None => Ok (h, x1)
  end.
Definition h_rewtrig (h : heap) (i : nat) (v : string) (e : expr) : res heap :=
  if is_id IRewTrig (last_tr ex_pae h i) then Ok h
  else
    o <- rewrite_trig fk e;;
    match o with
    | None => Ok h
    | Some l => h' <- foldM (fun h r => add1 h i (mkn r v (TId IRewTrig) i)) l h;; Ok (setn h' i (set_ty OR))
    end.
(** InverseTrigUSub.forward with the Simplify step, transforms.py:494-513 *)
Definition h_inv (s : st) (i : nat) (v : string) (e : expr) : res st :=
  let '(h, x) := s in
  if match last_tr ex_pa h i with Some (TUSub UTrig2 _) => true | _ => false end then Ok s
  else
    o <- inv_usub fk rng v (nm x) e;;
    match o with
    | None => Ok s
    | Some (u, g) =>
        let c := mkn g (nm x) (TUSub UInvTrig u) i in
        let dr := dropped h i c in
        h1 <- add1 h i c;;
        o <- simplify_step fk g;;
        match o with
        | Some r => if dr then Ok (h1, S x)
                    else h2 <- add_id ISimp h1 (List.length h) (nm x) (Some r);; Ok (h2, S x)
        | None => Ok (h1, S x)
        end
    end.

(** _integrate_heuristically, integration.py:313-333 *)
Definition heuristics (s : st) (i : nat) : res st :=
  q <- get (fst s) i;;
  let e := nd_e q in
  let v := nd_v q in
  s <- (o <- poly_usub fk rng n v (nm (snd s)) e;; h_usub UPoly s i o);;
  s <- (o <- product_to_sum_unit fk n e;; h' <- add_id IPts (fst s) i v o;; Ok (h', snd s));;
  s <- (if match last_tr ex_pa (fst s) i with Some (TUSub UInvTrig _) => true | _ => false end then Ok s
        else o <- trig_usub fk rng v (nm (snd s)) e;; h_usub UTrig2 s i o);;
  s <- h_byparts s i v e;;
  s <- (h' <- h_rewtrig (fst s) i v e;; Ok (h', snd s));;
  s <- (o <- rewrite_pyth fk e;; h' <- add_id IRewPyth (fst s) i v o;; Ok (h', snd s));;
  s <- h_inv s i v e;;
  s <- (o <- complete_square fk n v e;; h' <- add_id IComplete (fst s) i v o;; Ok (h', snd s));;
  o <- generic_usub fk rng n v (nm (snd s)) e;; h_usub UGen s i o.
Definition heuristically (s : st) (i : nat) : res st :=
  s1 <- heuristics s i;;
  let '(h, x) := s1 in
  b <- solved h i;;
  if b : bool then Ok s1
  else
    q <- get h i;;
    match nd_kids q with
    | [] => Ok (setn h i (set_ty FAILURE), x)
    | ks =>
        let h' := match ks with _ :: _ :: _ => setn h i (set_ty OR) | _ => h end in
        foldM (safely n) ks (h', x)
    end.

(** ** Choosing the next node *)

(** nesting, expr.py:28-67; the cache is left out *)
Fixpoint nesting (v : option string) (e : expr) : nat :=
  let sk t := match t with
              | EPow b x => if isq x (-1) then nesting v b else nesting v t
              | _ => nesting v t
              end in
  let mx (l : list expr) := fold_right (fun t r => Nat.max (sk t) r) 0 l in
  if match v with Some s => negb (contains s e) | None => false end then 0
  else
    match e with
    | EProd ts =>
        match ts with
        | [t; o] => if isq t (-1) then sk o else S (Nat.max (sk t) (sk o))
        | _ => S (mx ts)
        end
    | ESym _ => 1
    | ESum ts => S (mx ts)
    | EPow b x => S (Nat.max (sk b) (sk x))
    | ELog i b => S (Nat.max (sk i) (sk b))
    | ETrig _ i | EAbs i => S (sk i)
    | _ => 0
    end.

(** nesting(e, v) as called from outside, expr.py:40-43: Infinity and NegInfinity never run Expr.__post_init__ (658-659,
    677-678), their _nesting_cache is None and the test [stri not in None] raises TypeError. *)
Definition nestingc (v : option string) (e : expr) : res nat :=
  match e with EInf | ENegInf => Raise TypeError | _ => Ok (nesting v e) end.

(** _get_node_with_best_nesting, integration.py:42-51: the first node with the smallest (largest) value *)
Fixpoint best_go (better : nat -> nat -> bool) (l : list (nat * nat)) (b : nat * nat) : nat :=
  match l with
  | [] => fst b
  | a :: r => best_go better r (if better (snd a) (snd b) then a else b)
  end.
Definition best_nesting (mn : bool) (h : heap) (l : list nat) : res nat :=
  vs <- mapM (fun i => q <- get h i;; k <- nestingc (Some (nd_v q)) (nd_e q);; Ok (i, k)) l;;
  match vs with
  | [] => Raise ValueError
  | a :: r => Ok (best_go (fun x y => if mn then Nat.ltb x y else Nat.ltb y x) r a)
  end.

(** _get_best_leaf, integration.py:23-39 *)
Fixpoint best_leaf (k : nat) (h : heap) (i : nat) : res nat :=
  match k with
  | O => Stop OutOfFuel
  | S k' =>
      uc <- unfinished_kids h i;;
      match uc with
      | [] => Ok i
      | [c] => best_leaf k' h c
      | _ =>
          b <- allM (fun c => l <- unfinished_kids h c;; Ok (isnil l)) uc;;
          q <- get h i;;
          let mn := match nd_ty q with OR => true | _ => false end in
          if b : bool then best_nesting mn h uc
          else l <- mapM (best_leaf k' h) uc;; best_nesting mn h l
      end
  end.

(** _get_next_node_post_heuristic_breadth_first, integration.py:173-183: [root.unfinished_leaves == 0]
    compares a list with a number and is never true *)
Definition next_bf (h : heap) : res nat :=
  ul <- unfinished_leaves h 0;;
  match ul with [i] => Ok i | _ => best_leaf (S (List.length h)) h 0 end.

(** what _cycle returns *)
Inductive next := NSolved | NNode (i : nat) | NNone.

(** the loop integration.py:195-200: the lowest node above with several children that is not an AND *)
Fixpoint up_or (k : nat) (h : heap) (p : nat) : res (option nat) :=
  match k with
  | O => Stop OutOfFuel
  | S k' =>
      q <- get h p;;
      if Nat.eqb (List.length (nd_kids q)) 1 || match nd_ty q with AND => true | _ => false end then
        match nd_p q with None => Ok None | Some p' => up_or k' h p' end
      else Ok (Some p)
  end.
(** _check_if_depth_first_bad, integration.py:215-231 *)
Definition df_bad (h : heap) (i : nat) : res bool :=
  q <- get h i;;
  k <- nestingc None (nd_e q);;
  Ok (Nat.leb 7 k || is_id IByParts (last_tr ex_pae h i)).
(** _get_next_node_post_heuristic_depth_first, integration.py:185-213 *)
Fixpoint next_df (k : nat) (h : heap) (i : nat) : res next :=
  match k with
  | O => Stop OutOfFuel
  | S k' =>
      ul <- unfinished_leaves h i;;
      match ul with
      | [] =>
          b <- failed h i;;
          if b : bool then
            q <- get h i;;
            match nd_p q with
            | None => Ok NNone
            | Some p =>
                o <- up_or (S p) h p;;
                match o with None => Ok NNone | Some j => next_df k' h j end
            end
          else Ok NSolved
      | _ =>
          a <- match ul with [j] => Ok j | _ => best_nesting true h ul end;;
          b <- df_bad h a;;
          if b : bool then j <- next_bf h;; Ok (NNode j) else Ok (NNode a)
      end
  end.

(** _cycle, integration.py:148-165; [bf] is the option breadth_first *)
Definition cycle (bf : bool) (s : st) (i : nat) : res (st * next) :=
  let '(h, x) := s in
  l <- unfinished_leaves h i;;
  h1 <- foldM check_solvable l h;;
  ul <- unfinished_leaves h1 i;;
  match ul with
  | [] => Ok ((h1, x), NSolved)
  | j :: _ =>
      s1 <- heuristically (h1, x) j;;
      a <- (if bf then k <- next_bf (fst s1);; Ok (NNode k) else next_df n (fst s1) j);;
      Ok (s1, a)
  end.

(** the while loop of Integration.integrate, integration.py:239-251; the clock runs out after [k]
    further cycles *)
Fixpoint run (bf : bool) (k : nat) (s : st) (cur : option nat) : res st :=
  match cur with
  | None => Raise AttributeError
  | Some i =>
      '(s1, a) <- cycle bf s i;;
      match k with
      | O => Ok s1
      | S k' =>
          fin <- finished (fst s1) 0;;
          if fin : bool then Ok s1
          else match a with
               | NSolved => j <- next_bf (fst s1);; run bf k' s1 (Some j)
               | NNode j => run bf k' s1 (Some j)
               | NNone => run bf k' s1 None
               end
      end
  end.

(** Integration.integrate, integration.py:233-272 *)
Definition integrate (bf : bool) (k : nat) (final : bool) (e : expr) (v : string) : res (option expr) :=
  e0 <- simplifyE fk n e;;
  s0 <- safely n ([mkroot e0 v], 0) 0;;
  s1 <- run bf k s0 (Some 0);;
  b <- solved (fst s1) 0;;
  if b : bool then
    '(_, r) <- go_backwards (fst s1);;
    if final then r' <- simplifyE fk n r;; Ok (Some r') else Ok (Some r)
  else Ok None.

(** Integration.integrate_bounds, integration.py:122-128 *)
Definition integrate_bounds (bf : bool) (k : nat) (e : expr) (v : string) (a b : expr) : res (option expr) :=
  o <- integrate bf k false e v;;
  match o with
  | None => Ok None
  | Some F =>
      fb <- subs fk [(v, b)] F;; fa <- subs fk [(v, a)] F;;
      d <- op_sub fk fb fa;; r <- simplifyE fk n d;; Ok (Some r)
  end.

(** integrate(expr, bounds), integration.py:54-103 *)
Inductive bounds := BNone | BVar (v : string) | BPair (a b : expr) | BTriple (v : string) (a b : expr).
Definition integrate_api (bf : bool) (k : nat) (e : expr) (b : bounds) : res (option expr) :=
  match b with
  | BNone => match symbols e with [v] => integrate bf k true e v | _ => Raise ValueError end
  | BPair lo hi => match symbols e with [v] => integrate_bounds bf k e v lo hi | _ => Raise ValueError end
  | BVar v => integrate bf k true e v
  | BTriple v lo hi => integrate_bounds bf k e v lo hi
  end.
End Search.
