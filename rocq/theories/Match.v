(** * Match: the pattern matcher [eq] of src/simpy/regex.py, with monotonicity and soundness.

    Wildcards are [EAny key].  Python gives them random keys (utils.random_id); the model takes the
    keys of the query as they come. *)
From Coquelicot Require Import Coquelicot.
From Verif Require Export Simp.
From Coq Require Import Sorting.Permutation.
Open Scope list_scope.

(** isinstance(t, Any_); t.has(Any_) *)
Definition is_any (e : expr) : bool := match e with EAny _ => true | _ => false end.
Definition has_any : expr -> bool := gcontains is_any.
(** keys of get_anys(e), regex.py:89-104 (a set: order unspecified, only its size and its single
    element are used) *)
Fixpoint any_names (e : expr) : list string :=
  match e with
  | EAny k => [k]
  | ESum ts | EProd ts => flat_map any_names ts
  | EPow b x => any_names b ++ any_names x
  | ELog i b => any_names i ++ any_names b
  | ETrig _ i | EAbs i => any_names i
  | _ => []
  end.
Definition any_keys (e : expr) : list string := nodup string_dec (any_names e).

(** MatchesInProgress and Matches, regex.py:118-119, as association lists in insertion order *)
Definition mip := list (string * list expr).
Definition mts := list (string * expr).

(** [d[k].append(e)] and [d[k].extend(l)] on a defaultdict(list) *)
Fixpoint extend (k : string) (l : list expr) (m : mip) : mip :=
  match m with
  | [] => [(k, l)]
  | (k', l') :: r => if String.eqb k k' then (k', l' ++ l) :: r else (k', l') :: extend k l r
  end.
Definition push (k : string) (e : expr) (m : mip) : mip := extend k [e] m.
(** join_dicts, regex.py:346-349; join_dicts2, 352-358 *)
Definition join (m : mip) (d : mts) : mip := fold_left (fun m p => push (fst p) (snd p) m) d m.
Definition join2 (m d : mip) : mip := fold_left (fun m p => extend (fst p) (snd p) m) d m.
Fixpoint lookup {A} (k : string) (m : list (string * A)) : option A :=
  match m with [] => None | (k', a) :: r => if String.eqb k k' then Some a else lookup k r end.

(** no two elements are equal (used by strict mode only) *)
Fixpoint nodupb (l : list expr) : bool :=
  match l with [] => true | a :: r => negb (existsb (eeqb a) r) && nodupb r end.
Fixpoint nodups (l : list string) : bool :=
  match l with [] => true | a :: r => negb (existsb (String.eqb a) r) && nodups r end.

Section Match.
Context (fk : fkern).

(** all_same, regex.py:107-115 *)
Fixpoint all_same (l : list expr) : res bool :=
  match l with
  | a :: (b :: _) as r => e <- k_eq fk a b;; if e : bool then all_same r else Ok false
  | _ => Ok true
  end.

(** The loop "for k, v in self._matches.items()", regex.py:235-239: [None] when two values of a
    wildcard differ. *)
Fixpoint close (m : mip) : res (option mts) :=
  match m with
  | [] => Ok (Some [])
  | (k, l) :: r =>
      s <- all_same l;;
      if s : bool then
        match l with
        | [] => Raise IndexError
        | a :: _ => o <- close r;; Ok (match o with Some d => Some ((k, a) :: d) | None => None end)
        end
      else Ok None
  end.

(** Eq._eq, regex.py:255-295.  [hook] is the division step (lines 270-291), absent when _is_divide. *)
Fixpoint eqg (hook : expr -> expr -> mip -> res (option mip)) (q e : expr) (m : mip) {struct q}
  : res (bool * mip) :=
  let fix all (ql el : list expr) (m : mip) {struct ql} : res (bool * mip) :=
    match ql, el with
    | q1 :: ql', e1 :: el' => '(b, m1) <- eqg hook q1 e1 m;; if b : bool then all ql' el' m1 else Ok (false, m1)
    | _, _ => Ok (true, m)
    end in
  b <- k_eq fk e q;;
  if b : bool then Ok (true, m)
  else
    match q with
    | EAny k => Ok (true, push k e m)
    | _ =>
        if negb (has_any q) then Ok (false, m)
        else
          o <- hook q e m;;
          match o with
          | Some m' => Ok (true, m')
          | None =>
              match q, e with
              | ESum ql, ESum el | EProd ql, EProd el =>
                  if Nat.eqb (List.length el) (List.length ql) then all ql el m else Ok (false, m)
              | EPow a b, EPow c d | ELog a b, ELog c d =>
                  '(r, m1) <- eqg hook a c m;; if r : bool then eqg hook b d m1 else Ok (false, m1)
              | ETrig f a, ETrig g c => if trig_eqb f g then eqg hook a c m else Ok (false, m)
              | EAbs a, EAbs c => eqg hook a c m
              | _, _ => Ok (false, m)
              end
          end
    end.

(** [Eq(e, q, decompose_singles=False, ..)()] without up_to_factor/up_to_sum: the matches, or
    None for {"success": False}. *)
Definition run (hook : expr -> expr -> mip -> res (option mip)) (q e : expr) : res (option mts) :=
  '(b, m) <- eqg hook q e [];; if b : bool then close m else Ok None.
Definition nohook : expr -> expr -> mip -> res (option mip) := fun _ _ _ => Ok None.

(** _make_factors_list, regex.py:304-324: wildcards named "factor" last, other factors with
    wildcards before them. *)
Definition is_factor_any (e : expr) : bool :=
  match e with EAny k => match index 0 "factor" k with Some _ => true | None => false end | _ => false end.
Definition factors_list (e : expr) : res (list expr) :=
  match e with
  | EProd ts =>
      if Nat.ltb 1 (List.length (filter is_any ts)) then Raise NotImplementedError
      else Ok (filter (fun t => negb (has_any t)) ts
               ++ filter (fun t => negb (is_factor_any t) && has_any t) ts
               ++ filter is_factor_any ts)
  | _ => Ok [e]
  end.

(** The double loop of divide_anys, regex.py:329-339.  A used factor of the denominator becomes
    [None]; the numerator factor [f] stays in use for the rest of the inner loop. *)
Fixpoint div_inner (f : expr) (dens : list (option expr)) (m : mip)
  : res (list (option expr) * mip * bool) :=
  match dens with
  | [] => Ok ([], m, false)
  | None :: r => '(r', m', h) <- div_inner f r m;; Ok (None :: r', m', h)
  | Some d :: r =>
      o <- run nohook f d;;
      match o with
      | Some ms => '(r', m', _) <- div_inner f r (join m ms);; Ok (None :: r', m', true)
      | None => '(r', m', h) <- div_inner f r m;; Ok (Some d :: r', m', h)
      end
  end.
Fixpoint div_outer (nums : list expr) (dens : list (option expr)) (m : mip)
  : res (list expr * list (option expr) * mip) :=
  match nums with
  | [] => Ok ([], dens, m)
  | f :: r =>
      '(dens', m', h) <- div_inner f dens m;;
      '(nf, dens'', m'') <- div_outer r dens' m';;
      Ok (if h : bool then nf else f :: nf, dens'', m'')
  end.
Definition somes (l : list (option expr)) : list expr :=
  flat_map (fun o => match o with Some d => [d] | None => [] end) l.
(** divide_anys up to the final quotient: unmatched factors of both sides and the matches.
    Strict mode stops when the denominator has a repeated factor. *)
Definition divide (num den : expr) : res (list expr * list expr * mip) :=
  nf <- factors_list num;; df <- factors_list den;;
  guard (negb (k_strict fk) || nodupb df)
  ('(nf', dens, m) <- div_outer nf (map Some df) [];; Ok (nf', somes dens, m)).

(** expected shapes of the unmatched factors (strict mode): [k] and c*[k], c = 1 or -1 *)
Definition only_any (k : string) (nf : list expr) : bool :=
  match nf with [EAny k'] => String.eqb k k' | _ => false end.
Definition sign_any (k : string) (nf : list expr) (v : expr) : bool :=
  match nf, v with
  | [ERat c; EAny k'], ERat c' => String.eqb k k' && Qeq_bool c c' && (Qeq_bool c 1 || Qeq_bool c (-1))
  | _, _ => false
  end.
Definition isnil {A} (l : list A) : bool := match l with [] => true | _ => false end.

(** The division step of _eq, regex.py:270-291 (wildcards have no value, so the quotient is built
    without the domain guard).  It records the quotient's remaining factor as the
    value of the wildcard where the inverse is needed; strict mode stops unless it is 1 or -1, and
    unless a quotient 1 or a bare wildcard comes from factors that cancel one by one. *)
Definition dhook (q e : expr) (m : mip) : res (option mip) :=
  '(nf, df, dm) <- divide q e;;
  a <- k_prod (k_raw fk) nf;; b <- k_prod (k_raw fk) df;; one <- op_div (k_raw fk) a b;;
  let strict_ok g r := guard (negb (k_strict fk) || (isnil df && g)) r in
  if isq one 1 then strict_ok (isnil nf) (Ok (Some (join2 m dm)))
  else
    match one with
    | EAny k => strict_ok (only_any k nf) (Ok (Some (join2 (push k (ERat 1) m) dm)))
    | _ =>
        if isnil (symbols one) then
          match any_keys one with
          | [k] =>
              v <- op_div (k_raw fk) one (EAny k);;
              if has_any v then Ok None
              else strict_ok (sign_any k nf v) (Ok (Some (push k v (join2 m dm))))
          | _ => Ok None
          end
        else Ok None
    end.

(** eq(expr, query) without options (decompose_singles is applied by the callers) *)
Definition eq_plain (q e : expr) : res (option mts) :=
  if has_any e then Raise ValueError else run dhook q e.

(** _matches_eq on two Matches, regex.py:122-134 *)
Fixpoint matches_le (x y : mts) : res bool :=
  match x with
  | [] => Ok true
  | (k, a) :: r =>
      match lookup k y with
      | Some b => e <- k_eq fk b a;; if e : bool then matches_le r y else Ok false
      | None => matches_le r y
      end
  end.
Fixpoint matches_le' (y x : mts) : res bool :=
  match y with
  | [] => Ok true
  | (k, b) :: r =>
      match lookup k x with
      | Some a => e <- k_eq fk b a;; if e : bool then matches_le' r x else Ok false
      | None => matches_le' r x
      end
  end.
Definition matches_eq (x y : mts) : res bool :=
  a <- matches_le x y;; if a : bool then matches_le' y x else Ok false.

(** One row of query_matches: for a query term, the expression terms that match it, with their
    repr.  (The term itself is carried along.)  The compatibility test of line 217 iterates over
    the keys (strings) of the rows and is always true for keys that are not substrings of reprs. *)
Definition row := list (string * expr * mts).
Fixpoint dset (r : row) (s : string) (t : expr) (d : mts) : row :=
  match r with
  | [] => [(s, t, d)]
  | (s', t', d') :: r' => if String.eqb s s' then (s, t, d) :: r' else (s', t', d') :: dset r' s t d
  end.
Fixpoint sum_row (q : expr) (es : list (expr * string)) (acc : row) : res row :=
  match es with
  | [] => Ok acc
  | (t, s) :: r =>
      o <- run dhook q t;;
      sum_row q r (match o with Some d => dset acc s t d | None => acc end)
  end.
(** rows of all query terms; None as soon as one is empty (regex.py:210-222).  Simplification: the
    terms of the query are taken to have different reprs. *)
Fixpoint sum_rows (qs : list expr) (es : list (expr * string)) : res (option (list row)) :=
  match qs with
  | [] => Ok (Some [])
  | q :: r =>
      w <- sum_row q es [];;
      match w with
      | [] => Ok None
      | _ => o <- sum_rows r es;; Ok (match o with Some ws => Some (w :: ws) | None => None end)
      end
  end.
(** consolidate, regex.py:140-166: the first entry of each row that contradicts no row entirely. *)
Definition compatible (rows : list row) (d : mts) : res bool :=
  allM (fun w : row => anyM (fun p : string * expr * mts => matches_eq (snd p) d) w) rows.
Fixpoint pick (rows : list row) (w : row) : res (option (string * expr * mts)) :=
  match w with
  | [] => Ok None
  | p :: r => c <- compatible rows (snd p);; if c : bool then Ok (Some p) else pick rows r
  end.
Fixpoint picks (rows ws : list row) : res (option (list (string * expr * mts))) :=
  match ws with
  | [] => Ok (Some [])
  | w :: r =>
      o <- pick rows w;;
      match o with
      | None => Ok None
      | Some p => os <- picks rows r;; Ok (match os with Some ps => Some (p :: ps) | None => None end)
      end
  end.
Definition pname (p : string * expr * mts) : string := fst (fst p).
Definition pterm (p : string * expr * mts) : expr := snd (fst p).

(** Eq(expr, query, up_to_sum=True): matches and rest.  Strict mode stops when two terms of the
    expression print alike or when one term has been used for two query terms. *)
Definition eq_sum (q e : expr) : res (option (mts * expr)) :=
  match q, e with
  | ESum qs, ESum es =>
      if Nat.ltb (List.length es) (List.length qs) then Ok None
      else
        rs <- mapM (k_repr fk) es;;
        let ps := combine es rs in
        o <- sum_rows qs ps;;
        match o with
        | None => Ok None
        | Some rows =>
            o' <- picks rows rows;;
            match o' with
            | None => Ok None
            | Some l =>
                c <- close (fold_left (fun m p => join m (snd p)) l []);;
                match c with
                | None => Raise AssertionError
                | Some final =>
                    a <- compatible rows final;;
                    if a : bool then
                      guard (negb (k_strict fk) || (nodups rs && nodups (map pname l)))
                      (rest <- k_sum fk (map fst (filter (fun p => negb (existsb (String.eqb (snd p)) (map pname l))) ps));;
                       Ok (Some (final, rest)))
                    else Raise AssertionError
                end
            end
        end
  | _, _ => Raise NotImplementedError
  end.

(** What a caller of [eq(.., up_to_factor=True)] reads from the result when the query has the
    wildcards [fkey] (the factor) and [akey]: factor and the single match, regex.py:244-253.
    Other sets of keys cannot arise from such a query. *)
Definition factor_match (fkey akey : string) (m : mts) : res (expr * expr) :=
  match lookup fkey m, lookup akey m with
  | Some f, Some a => if Nat.eqb (List.length m) 2 then Ok (f, a) else Stop Unmodelled
  | _, _ => Stop Unmodelled
  end.
End Match.

(** ** Monotonicity *)
Section MatchMono.
Context (f1 f2 : fkern) (HF : fle f1 f2).
Lemma all_same_mono l : rle (all_same f1 l) (all_same f2 l).
Proof.
  induction l as [|a l IH]; [apply rle_refl|]. destruct l as [|b l]; [apply rle_refl|].
  change (rle (e <- k_eq f1 a b;; if e : bool then all_same f1 (b :: l) else Ok false)
              (e <- k_eq f2 a b;; if e : bool then all_same f2 (b :: l) else Ok false)). mono.
Qed.
Lemma close_mono m : rle (close f1 m) (close f2 m).
Proof. pose proof all_same_mono. induction m as [|[k l] m IH]; cbn [close]; mono. Qed.
Lemma eqg_mono h1 h2 (HH : forall q e m, rle (h1 q e m) (h2 q e m)) q :
  forall e m, rle (eqg f1 h1 q e m) (eqg f2 h2 q e m).
Proof.
  assert (L : forall ts, Forall (fun q => forall e m, rle (eqg f1 h1 q e m) (eqg f2 h2 q e m)) ts -> forall el m,
    rle ((fix all (ql el : list expr) (m : mip) {struct ql} : res (bool * mip) :=
    match ql, el with
    | q1 :: ql', e1 :: el' => '(b, m1) <- eqg f1 h1 q1 e1 m;; if b : bool then all ql' el' m1 else Ok (false, m1)
    | _, _ => Ok (true, m)
    end) ts el m) ((fix all (ql el : list expr) (m : mip) {struct ql} : res (bool * mip) :=
    match ql, el with
    | q1 :: ql', e1 :: el' => '(b, m1) <- eqg f2 h2 q1 e1 m;; if b : bool then all ql' el' m1 else Ok (false, m1)
    | _, _ => Ok (true, m)
    end) ts el m)).
  { induction 1 as [|t ts Ht _ IH]; intros el m; mono. }
  induction q as [p| | | | |s|k|ts IH|ts IH|b x IHb IHx|i b IHi IHb|f i IHi|i IHi] using expr_ind'; intros e m;
    cbn [eqg]; apply rle_bind; try (apply HF); intros [|]; try apply rle_refl;
    match goal with |- context[if ?b then _ else _] => destruct b; [apply rle_refl|] | _ => idtac end;
    try (apply rle_bind; [apply HH|]; intros [m'|]; [apply rle_refl|]); mono.
Qed.
Lemma run_mono h1 h2 (HH : forall q e m, rle (h1 q e m) (h2 q e m)) q e : rle (run f1 h1 q e) (run f2 h2 q e).
Proof. pose proof (eqg_mono h1 h2 HH). pose proof close_mono. unfold run. mono. Qed.
Lemma div_inner_mono f dens : forall m, rle (div_inner f1 f dens m) (div_inner f2 f dens m).
Proof.
  pose proof (run_mono nohook nohook (fun _ _ _ => rle_refl _)).
  induction dens as [|[d|] dens IH]; intros m; cbn [div_inner]; mono.
Qed.
Lemma div_outer_mono nums : forall dens m, rle (div_outer f1 nums dens m) (div_outer f2 nums dens m).
Proof. pose proof div_inner_mono. induction nums as [|f nums IH]; intros dens m; cbn [div_outer]; mono. Qed.
Lemma strictg_mono {A} b (r1 r2 : res A) : rle r1 r2 ->
  rle (guard (negb (k_strict f1) || b) r1) (guard (negb (k_strict f2) || b) r2).
Proof. intros. apply guard_mono; auto. intros. eapply nstrict_mono; eauto. Qed.
Lemma divide_mono a b : rle (divide f1 a b) (divide f2 a b).
Proof. pose proof div_outer_mono. unfold divide. mono. apply strictg_mono. mono. Qed.
Lemma dhook_mono q e m : rle (dhook f1 q e m) (dhook f2 q e m).
Proof.
  pose proof divide_mono. pose proof @strictg_mono. unfold dhook. cbv zeta.
  apply rle_bind; [auto|]. intros [[nf df] dm]. mono; apply strictg_mono; apply rle_refl.
Qed.
Lemma eq_plain_mono q e : rle (eq_plain f1 q e) (eq_plain f2 q e).
Proof. pose proof (run_mono _ _ dhook_mono). unfold eq_plain. mono. Qed.
Lemma matches_eq_mono x y : rle (matches_eq f1 x y) (matches_eq f2 x y).
Proof.
  assert (A : forall x y, rle (matches_le f1 x y) (matches_le f2 x y))
    by (clear x y; intros x y; induction x as [|[k a] x IH]; cbn [matches_le]; mono).
  assert (B : forall x y, rle (matches_le' f1 x y) (matches_le' f2 x y))
    by (clear x y; intros x y; induction x as [|[k a] x IH]; cbn [matches_le']; mono).
  unfold matches_eq. mono.
Qed.
Lemma sum_row_mono q es : forall acc, rle (sum_row f1 q es acc) (sum_row f2 q es acc).
Proof.
  pose proof (run_mono _ _ dhook_mono). induction es as [|[t s] es IH]; intros acc; cbn [sum_row]; mono.
Qed.
Lemma sum_rows_mono qs es : rle (sum_rows f1 qs es) (sum_rows f2 qs es).
Proof. pose proof sum_row_mono. induction qs as [|q qs IH]; cbn [sum_rows]; mono. Qed.
Lemma compatible_mono rows d : rle (compatible f1 rows d) (compatible f2 rows d).
Proof. pose proof matches_eq_mono. unfold compatible. mono. Qed.
Lemma pick_mono rows w : rle (pick f1 rows w) (pick f2 rows w).
Proof. pose proof compatible_mono. induction w as [|p w IH]; cbn [pick]; mono. Qed.
Lemma picks_mono rows ws : rle (picks f1 rows ws) (picks f2 rows ws).
Proof. pose proof pick_mono. induction ws as [|p w IH]; cbn [picks]; mono. Qed.
Lemma eq_sum_mono q e : rle (eq_sum f1 q e) (eq_sum f2 q e).
Proof.
  pose proof sum_rows_mono. pose proof picks_mono. pose proof close_mono. pose proof compatible_mono.
  unfold eq_sum. cbv zeta. destruct q, e; try apply rle_refl. mono. apply strictg_mono. mono.
Qed.
End MatchMono.

(** ** Soundness *)

(** A query with its wildcards replaced. *)
Fixpoint inst (s : string -> expr) (q : expr) : expr :=
  match q with
  | EAny k => s k
  | ESum ts => ESum (map (inst s) ts)
  | EProd ts => EProd (map (inst s) ts)
  | EPow b x => EPow (inst s b) (inst s x)
  | ELog i b => ELog (inst s i) (inst s b)
  | ETrig f i => ETrig f (inst s i)
  | EAbs i => EAbs (inst s i)
  | _ => q
  end.

(** [s] gives every wildcard the values recorded in [m]. *)
Definition agree (s : string -> expr) (m : mip) : Prop :=
  forall k l x, In (k, l) m -> In x l -> s k = x.
Definition agree1 (s : string -> expr) (d : mts) : Prop := forall k x, In (k, x) d -> s k = x.
Definition vals (P : expr -> Prop) (m : mip) : Prop := forall k l x, In (k, l) m -> In x l -> P x.
Definition vals1 (P : expr -> Prop) (d : mts) : Prop := forall k x, In (k, x) d -> P x.

Lemma extend_all (Q : string -> expr -> Prop) k l m :
  (forall k' l' x, In (k', l') (extend k l m) -> In x l' -> Q k' x) <->
  (forall k' l' x, In (k', l') m -> In x l' -> Q k' x) /\ (forall x, In x l -> Q k x).
Proof.
  induction m as [|[k0 l0] m IH].
  - simpl. split.
    + intros H. split; [intros ? ? ? []|]. intros x Hx. now apply (H k l x); auto.
    + intros [_ H] k' l' x [E|[]] Hx. injection E as <- <-. auto.
  - cbn [extend]. destruct (String.eqb_spec k k0) as [->|N].
    + split.
      * intros H. split.
        -- intros k' l' x [E|Hi] Hx.
           ++ injection E as <- <-. apply (H k0 (l0 ++ l) x); [now left|]. apply in_or_app; auto.
           ++ apply (H k' l' x); [now right|auto].
        -- intros x Hx. apply (H k0 (l0 ++ l) x); [now left|]. apply in_or_app; auto.
      * intros [H1 H2] k' l' x [E|Hi] Hx.
        -- injection E as <- <-. apply in_app_or in Hx as [Hx|Hx]; auto. apply (H1 k0 l0 x); [now left|auto].
        -- apply (H1 k' l' x); [now right|auto].
    + split.
      * intros H. assert (H' : forall k' l' x, In (k', l') (extend k l m) -> In x l' -> Q k' x).
        { intros k' l' x Hi Hx. apply (H k' l' x); [now right|auto]. }
        apply IH in H' as [A B]. split; auto. intros k' l' x [E|Hi] Hx.
        -- injection E as <- <-. apply (H k0 l0 x); [now left|auto].
        -- eauto.
      * intros [H1 H2] k' l' x [E|Hi] Hx.
        -- injection E as <- <-. apply (H1 k0 l0 x); [now left|auto].
        -- revert k' l' x Hi Hx. apply IH. split; auto. intros k' l' x Hi Hx. apply (H1 k' l' x); [now right|auto].
Qed.
Lemma agree_extend s k l m : agree s (extend k l m) <-> agree s m /\ (forall x, In x l -> s k = x).
Proof. apply (extend_all (fun k x => s k = x)). Qed.
Lemma vals_extend P k l m : vals P (extend k l m) <-> vals P m /\ (forall x, In x l -> P x).
Proof. apply (extend_all (fun _ x => P x)). Qed.
Lemma agree_push s k e m : agree s (push k e m) <-> agree s m /\ s k = e.
Proof. unfold push. rewrite agree_extend. simpl. intuition (subst; auto). Qed.
Lemma vals_push P k e m : vals P (push k e m) <-> vals P m /\ P e.
Proof. unfold push. rewrite vals_extend. simpl. intuition (subst; auto). Qed.
Lemma agree_join2 s d : forall m, agree s (join2 m d) <-> agree s m /\ agree s d.
Proof.
  induction d as [|[k l] d IH]; intros m; [split; [|unfold join2; simpl; tauto]; intros; split; auto; intros ? ? ? []|].
  change (join2 m ((k, l) :: d)) with (join2 (extend k l m) d). rewrite IH, agree_extend. split.
  - intros ((A & B) & C). split; auto. intros k' l' x [E|Hi] Hx; [injection E as <- <-; auto|eauto].
  - intros (A & B). repeat split; auto.
    + intros x Hx. apply (B k l x); [now left|auto].
    + intros k' l' x Hi Hx. apply (B k' l' x); [now right|auto].
Qed.
Lemma vals_join2 P d : forall m, vals P m -> vals P d -> vals P (join2 m d).
Proof.
  induction d as [|[k l] d IH]; intros m Hm Hd; cbn [join2 fold_left]; auto.
  apply IH.
  - cbn [fst snd]. apply vals_extend. split; auto. intros x Hx. apply (Hd k l x); [now left|auto].
  - intros k' l' x Hi Hx. apply (Hd k' l' x); [now right|auto].
Qed.
Lemma agree_join s d : forall m, agree s (join m d) <-> agree s m /\ agree1 s d.
Proof.
  induction d as [|[k a] d IH]; intros m; [split; [|unfold join; simpl; tauto]; intros; split; auto; intros ? ? []|].
  change (join m ((k, a) :: d)) with (join (push k a m) d). rewrite IH, agree_push. split.
  - intros ((A & B) & C). split; auto. intros k' x [E|Hi]; [injection E as <- <-; auto|eauto].
  - intros (A & B). repeat split; auto.
    + apply (B k a); now left.
    + intros k' x Hi. apply (B k' x); now right.
Qed.
Lemma vals_join P d : forall m, vals P m -> vals1 P d -> vals P (join m d).
Proof.
  induction d as [|[k a] d IH]; intros m Hm Hd; cbn [join fold_left]; auto.
  apply IH.
  - cbn [fst snd]. apply vals_push. split; auto. apply (Hd k a); now left.
  - intros k' x Hi. apply (Hd k' x); now right.
Qed.

Lemma nodupb_NoDup l : nodupb l = true -> NoDup l.
Proof.
  induction l as [|a l IH]; simpl; intros H; constructor; apply andb_prop in H as [H1 H2]; auto.
  intros C. apply negb_true_iff in H1. assert (X : existsb (eeqb a) l = true)
    by (apply existsb_exists; exists a; split; auto using eeqb_refl). congruence.
Qed.
Lemma nodups_NoDup l : nodups l = true -> NoDup l.
Proof.
  induction l as [|a l IH]; simpl; intros H; constructor; apply andb_prop in H as [H1 H2]; auto.
  intros C. apply negb_true_iff in H1. assert (X : existsb (String.eqb a) l = true)
    by (apply existsb_exists; exists a; split; auto using String.eqb_refl). congruence.
Qed.

Section MatchSound.
Context (rho : env) (fk : fkern) (HF : FSound rho fk).
Let HG : GSound rho fk := f_k _ _ HF.
Local Notation W := (wd rho).
Local Notation V := (ev rho).

Lemma all_same_ok l : all_same fk l = Ok true -> forall a, hd_error l = Some a -> Forall (eq a) l.
Proof.
  induction l as [|a l IH]; intros H b Hb; [discriminate|]. injection Hb as ->.
  destruct l as [|c l]; [constructor; auto|].
  assert (H' : (e <- k_eq fk b c;; if e : bool then all_same fk (c :: l) else Ok false) = Ok true) by exact H.
  apply bind_ok in H' as (e & He & H'). destruct e; [|discriminate].
  apply (f_eq _ _ HF) in He as ->. constructor; auto.
Qed.
Lemma close_ok m : forall d, close fk m = Ok (Some d) -> 
  (forall s, agree1 s d -> agree s m) /\ (forall P, vals P m -> vals1 P d) /\ map fst d = map fst m.
Proof.
  induction m as [|[k l] m IH]; cbn [close]; intros d H.
  - injection H as <-. split; [intros s _ ? ? ? []|]. split; auto. intros P _ ? ? [].
  - apply bind_ok in H as (b & Hb & H). destruct b; [|discriminate]. destruct l as [|a l]; [discriminate|].
    apply bind_ok in H as (o & Ho & H). destruct o as [d'|]; [|discriminate]. injection H as <-.
    destruct (IH _ Ho) as (A & B & C). pose proof (all_same_ok _ Hb a eq_refl) as S.
    split; [|split].
    + intros s Hs k' l' x [E|Hi] Hx.
      * injection E as <- <-. rewrite Forall_forall in S. rewrite <- (S _ Hx). apply (Hs k a). now left.
      * apply (A s) with (l := l'); auto. intros k2 x2 H2. apply (Hs k2 x2). now right.
    + intros P HP k' x [E|Hi].
      * injection E as <- <-. apply (HP k (a :: l) a); simpl; auto.
      * apply (B P) with (k := k'); auto. intros k2 l2 x2 H2 H3. apply (HP k2 l2 x2); simpl; auto.
    + simpl. now rewrite C.
Qed.

(** A relation preserved by every constructor and a property inherited by subexpressions. *)
Definition congr (R : expr -> expr -> Prop) : Prop :=
  (forall e, R e e) /\
  (forall l l', Forall2 R l l' -> R (ESum l) (ESum l') /\ R (EProd l) (EProd l')) /\
  (forall a b c d, R a c -> R b d -> R (EPow a b) (EPow c d) /\ R (ELog a b) (ELog c d)) /\
  (forall f a c, R a c -> R (ETrig f a) (ETrig f c) /\ R (EAbs a) (EAbs c)).
Lemma congr_eq : congr eq.
Proof.
  repeat split; intros; subst; auto; f_equal; induction H; subst; auto; now f_equal.
Qed.
Lemma congr_ev : congr (fun a b => V a = V b).
Proof.
  repeat split; intros; auto; simpl; try congruence; f_equal; induction H; simpl; auto; now f_equal.
Qed.

Definition hook_ok (R : expr -> expr -> Prop) (hook : expr -> expr -> mip -> res (option mip)) : Prop :=
  forall q e m m', hook q e m = Ok (Some m') -> W e ->
    (forall s, agree s m' -> agree s m /\ R e (inst s q)) /\ (vals W m -> vals W m').

Lemma inst_noany s q : has_any q = false -> inst s q = q.
Proof.
  unfold has_any.
  assert (L : forall ts, Forall (fun q => gcontains is_any q = false -> inst s q = q) ts ->
    existsb (gcontains is_any) ts = false -> map (inst s) ts = ts).
  { induction 1; simpl; auto. intros H1. apply orb_false_elim in H1 as [? ?]. f_equal; auto. }
  induction q as [p| | | | |s0|k|ts IH|ts IH|b x IHb IHx|i b IHi IHb|f i IHi|i IHi] using expr_ind'; cbn [gcontains inst is_any orb];
    intros H; auto; try discriminate; try (f_equal; auto; fail);
    try (apply orb_false_elim in H as [H1 H2]; f_equal; auto).
Qed.

Lemma wd_noany e : W e -> has_any e = false.
Proof.
  unfold has_any.
  induction e as [p| | | | |s0|k|ts IH|ts IH|b x IHb IHx|i b IHi IHb|f i IHi|i IHi] using expr_ind'; intros We;
    cbn [gcontains is_any orb]; auto; try contradiction.
  - apply wd_sum in We. induction IH; simpl; auto. inversion We; subst. rewrite H; auto.
  - apply wd_prod in We as [We _]. induction IH; simpl; auto. inversion We; subst. rewrite H; auto.
  - destruct We as (A & B & _). rewrite IHb, IHx; auto.
  - destruct We as (A & B & _). rewrite IHi, IHb; auto.
  - destruct We. auto.
Qed.

Lemma eqg_sound R hook : congr R -> hook_ok R hook ->
  forall q e m m', eqg fk hook q e m = Ok (true, m') -> W e ->
  (forall s, agree s m' -> agree s m /\ R e (inst s q)) /\ (vals W m -> vals W m').
Proof.
  intros (Rr & Rl & R2 & R1) HH.
  assert (L : forall ts, Forall (fun q => forall e m m', eqg fk hook q e m = Ok (true, m') -> W e ->
      (forall s, agree s m' -> agree s m /\ R e (inst s q)) /\ (vals W m -> vals W m')) ts ->
    forall el m m', List.length el = List.length ts ->
    ((fix all (ql el : list expr) (m : mip) {struct ql} : res (bool * mip) :=
    match ql, el with
    | q1 :: ql', e1 :: el' => '(b, m1) <- eqg fk hook q1 e1 m;; if b : bool then all ql' el' m1 else Ok (false, m1)
    | _, _ => Ok (true, m)
    end) ts el m) = Ok (true, m') -> Forall W el ->
    (forall s, agree s m' -> agree s m /\ Forall2 R el (map (inst s) ts)) /\ (vals W m -> vals W m')).
  { induction 1 as [|t ts Ht _ IH]; intros el m m' Le H Wl; destruct el as [|e1 el]; try discriminate.
    - injection H as <-. split; auto. intros s Hs. split; auto. constructor.
    - apply bind_ok in H as ([b m1] & Hb & H). destruct b; [|discriminate].
      inversion Wl; subst.
      apply Ht in Hb as [A B]; auto. apply IH in H as [C D]; auto.
      split; auto. intros s Hs. apply C in Hs as [Hs F]. apply A in Hs as [Hs G]. split; auto. simpl. constructor; auto. }
  induction q as [p| | | | |s0|k|ts IH|ts IH|b x IHb IHx|i b IHi IHb|f i IHi|i IHi] using expr_ind'; intros e m m' H We;
    cbn [eqg] in H; apply bind_ok in H as (eqb & Hq & H);
    (destruct eqb; [injection H as <-; apply (f_eq _ _ HF) in Hq as ->; split; auto; intros s Hs; split; auto;
       rewrite inst_noany by (now apply wd_noany); apply Rr|]); try discriminate H.
  1:{ injection H as <-. split; [|rewrite vals_push; auto]. intros s Hs. apply agree_push in Hs as [A B]. split; auto. simpl. rewrite B. apply Rr. }
  all: match type of H with (if negb ?b then _ else _) = _ => destruct b eqn:HA; simpl negb in H; cbv iota in H; [|discriminate] end.
  all: apply bind_ok in H as (o & Ho & H); destruct o as [m1|]; [injection H as <-; exact (HH _ _ _ _ Ho We)|].
  all: destruct e as [p'| | | | |s0'|k'|ts'|ts'|b' x'|i' b'|f' i'|i']; try discriminate H.
  - destruct (Nat.eqb_spec (List.length ts') (List.length ts)) as [El|]; [|discriminate].
    apply wd_sum in We. apply (L _ IH) in H as [A B]; auto. split; auto. intros s Hs. apply A in Hs as [Hs F].
    split; auto. now apply Rl.
  - destruct (Nat.eqb_spec (List.length ts') (List.length ts)) as [El|]; [|discriminate].
    apply wd_prod in We as [We _]. apply (L _ IH) in H as [A B]; auto. split; auto. intros s Hs. apply A in Hs as [Hs F].
    split; auto. now apply Rl.
  - apply bind_ok in H as ([r m1] & H1 & H). destruct r; [|discriminate]. destruct We as (W1 & W2 & _).
    apply IHb in H1 as [A B]; auto. apply IHx in H as [C D]; auto. split; auto. intros s Hs.
    apply C in Hs as [Hs F]. apply A in Hs as [Hs G]. split; auto. now apply R2.
  - apply bind_ok in H as ([r m1] & H1 & H). destruct r; [|discriminate]. destruct We as (W1 & W2 & _).
    apply IHi in H1 as [A B]; auto. apply IHb in H as [C D]; auto. split; auto. intros s Hs.
    apply C in Hs as [Hs F]. apply A in Hs as [Hs G]. split; auto. now apply R2.
  - destruct (trig_eqb f f') eqn:Ef; [|discriminate]. apply trig_eqb_eq in Ef as ->. destruct We as [W1 _].
    apply IHi in H as [A B]; auto. split; auto. intros s Hs. apply A in Hs as [Hs F]. split; auto. simpl. now apply R1.
  - apply IHi in H as [A B]; auto. split; auto. intros s Hs. apply A in Hs as [Hs F]. split; auto. simpl. now apply (R1 Sin).
Qed.

Lemma nohook_ok R : hook_ok R nohook.
Proof. intros q e m m' H. discriminate. Qed.

Lemma run_sound R hook : congr R -> hook_ok R hook -> forall q e d, run fk hook q e = Ok (Some d) -> W e ->
  (forall s, agree1 s d -> R e (inst s q)) /\ vals1 W d.
Proof.
  intros CR HH q e d H We. unfold run in H. apply bind_ok in H as ([b m] & Hb & H). destruct b; [|discriminate].
  apply (eqg_sound R hook CR HH) in Hb as [A B]; auto. apply close_ok in H as (C & D & _). split.
  - intros s Hs. now apply A, C.
  - apply D, B. intros ? ? ? [].
Qed.

Lemma div_inner_sound f dens : forall m dens' m' h, div_inner fk f dens m = Ok (dens', m', h) ->
  Forall W (somes dens) ->
  Forall W (somes dens') /\ (vals W m -> vals W m') /\ (forall s, agree s m' -> agree s m) /\
  (NoDup (somes dens) -> NoDup (somes dens') /\ (forall x, In x (somes dens') -> In x (somes dens))) /\
  (h = false -> dens' = dens) /\
  (h = true -> NoDup (somes dens) -> forall s, agree s m' -> Permutation (somes dens) (inst s f :: somes dens')).
Proof.
  induction dens as [|[d|] dens IH]; cbn [div_inner]; intros m dens' m' h H Wd.
  - injection H as <- <- <-. repeat split; auto. discriminate.
  - apply bind_ok in H as (o & Ho & H). simpl in Wd. inversion Wd as [|? ? W1 W2]; subst. destruct o as [ms|].
    + apply (run_sound eq nohook congr_eq (nohook_ok eq)) in Ho as [Hs Vs]; auto.
      apply bind_ok in H as ([[r' m1] h1] & H1 & H). injection H as <- <- <-.
      destruct (IH _ _ _ _ H1 W2) as (A & B & C & D & E & F). simpl. repeat split; auto.
      * intros Vm. apply B. now apply vals_join.
      * intros s Ag. apply C in Ag. now apply agree_join in Ag.
      * inversion H; subst. now apply D.
      * inversion H; subst. intros x Hx. right. now apply D.
      * discriminate.
      * intros _ ND s Ag. inversion ND as [|? ? H2 H3]; subst. assert (Ed : d = inst s f). { apply Hs. apply C, agree_join in Ag. tauto. }
        destruct h1.
        -- exfalso. assert (P : Permutation (somes dens) (inst s f :: somes r')) by (apply F; auto).
           apply H2. rewrite Ed. apply (Permutation_in _ (Permutation_sym P)). now left.
        -- rewrite (E eq_refl), <- Ed. reflexivity.
    + apply bind_ok in H as ([[r' m1] h1] & H1 & H). injection H as <- <- <-.
      destruct (IH _ _ _ _ H1 W2) as (A & B & C & D & E & F). simpl. repeat split; auto.
      * inversion H as [|? ? H2 H3]; subst. constructor; [|now apply D]. intros X. apply H2. now apply D.
      * inversion H; subst. intros x [->|Hx]; auto. right. now apply D.
      * intros ->. now rewrite E.
      * intros -> ND s Ag. inversion ND as [|? ? H2 H3]; subst. rewrite (F eq_refl H3 s Ag). apply perm_swap.
  - apply bind_ok in H as ([[r' m1] h1] & H1 & H). injection H as <- <- <-.
    destruct (IH _ _ _ _ H1 Wd) as (A & B & C & D & E & F). simpl. repeat split; auto; try (apply D; auto).
    intros ->. now rewrite E.
Qed.

Definition pv (l : list expr) : R := Rprod (map V l).
Definition pi_ (s : string -> expr) (l : list expr) : R := Rprod (map (fun t => V (inst s t)) l).
Lemma div_outer_sound nums : forall dens m nf dens' m', div_outer fk nums dens m = Ok (nf, dens', m') ->
  Forall W (somes dens) -> NoDup (somes dens) ->
  (vals W m -> vals W m') /\ (forall s, agree s m' -> agree s m /\
     pv (somes dens) * pi_ s nf = pi_ s nums * pv (somes dens')).
Proof.
  induction nums as [|f nums IH]; cbn [div_outer]; intros dens m nf dens' m' H Wd ND.
  - injection H as <- <- <-. split; auto. intros s Hs. split; auto. unfold pi_. simpl. ring.
  - apply bind_ok in H as ([[d1 m1] h] & H1 & H). apply bind_ok in H as ([[n2 d2] m2] & H2 & H).
    injection H as <- <- <-. destruct (div_inner_sound _ _ _ _ _ _ H1 Wd) as (A & B & C & D & E & F).
    destruct (D ND) as [ND' _]. destruct (IH _ _ _ _ _ H2 A ND') as [G1 G2]. split; auto.
    intros s Hs. destruct (G2 s Hs) as [G3 G4]. split; auto. destruct h.
    + pose proof (F eq_refl ND s G3) as P. apply (Permutation_map V) in P. apply Rprod_perm in P.
      unfold pv in *. rewrite P. cbn [map Rprod fold_right]. fold (Rprod (map V (somes d1))).
      unfold pi_ at 2. cbn [map Rprod fold_right]. fold (pi_ s nums). rewrite Rmult_assoc, G4. 
      unfold pi_, Rprod. ring.
    + rewrite (E eq_refl) in *. unfold pi_ in *. cbn [map Rprod fold_right] in *.
      fold (Rprod (map (fun t => V (inst s t)) n2)) (Rprod (map (fun t => V (inst s t)) nums)).
      rewrite <- Rmult_assoc, (Rmult_comm (pv _)), Rmult_assoc, G4. ring.
Qed.

Lemma factors_list_sound e l : factors_list e = Ok l ->
  (forall g : expr -> R, Rprod (map g l) = match e with EProd ts => Rprod (map g ts) | _ => g e end) /\
  (W e -> Forall W l).
Proof.
  intros H. assert (G : [e] = l -> (forall g : expr -> R, Rprod (map g l) = g e) /\ (W e -> Forall W l)).
  { intros <-. split; auto. intros g. simpl. ring. }
  destruct e; try (apply G; injection H as <-; reflexivity). clear G. cbn [factors_list] in H.
  destruct (Nat.ltb _ _); [discriminate|]. injection H as <-. split.
  - intros g. rewrite !map_app, !Rprod_app. clear. induction ts as [|t ts IH]; simpl; [ring|]. rewrite <- IH.
    assert (K : is_factor_any t = true -> has_any t = true) by (destruct t; try discriminate; auto).
    destruct (has_any t) eqn:A, (is_factor_any t) eqn:B; simpl; try ring. now discriminate K.
  - intros We. apply wd_prod in We as [We _].
    assert (FF : forall p, Forall W (filter p ts)).
    { intros p. apply Forall_forall. intros x Hx. apply filter_In in Hx as [Hx _]. rewrite Forall_forall in We. auto. }
    apply Forall_app. split; auto. apply Forall_app. auto.
Qed.

Lemma somes_Some l : somes (map Some l) = l.
Proof. unfold somes. induction l; simpl; auto. now f_equal. Qed.

Lemma divide_sound q e nf df m : divide fk q e = Ok (nf, df, m) -> W e ->
  vals W m /\ (forall s, agree s m -> V e * pi_ s nf = V (inst s q) * pv df).
Proof.
  unfold divide. intros H We. apply bind_ok in H as (ns & Hn & H). apply bind_ok in H as (ds & Hd & H).
  apply guard_ok in H as [G H]. rewrite (f_strict _ _ HF) in G. simpl in G. apply nodupb_NoDup in G.
  apply bind_ok in H as ([[nf' dens] m'] & H1 & H). injection H as <- <- <-.
  apply factors_list_sound in Hn as [N1 _]. apply factors_list_sound in Hd as [D1 D2].
  apply div_outer_sound in H1 as [A B]; try rewrite somes_Some; auto.
  rewrite somes_Some in B. split; [apply A; intros ? ? ? []|].
  intros s Hs. destruct (B s Hs) as [_ E].
  assert (E1 : pv ds = V e) by (unfold pv; rewrite D1; destruct e; auto).
  assert (E2 : pi_ s ns = V (inst s q)).
  { unfold pi_. rewrite (N1 (fun t => V (inst s t))). destruct q; auto. simpl. now rewrite map_map. }
  now rewrite E1, E2 in E.
Qed.

Lemma dhook_ok : hook_ok (fun a b => V a = V b) (dhook fk).
Proof.
  intros q e m m' H We. unfold dhook in H. cbv zeta in H.
  apply bind_ok in H as ([[nf df] dm] & Hd & H). apply divide_sound in Hd as [Vd Ed]; auto.
  apply bind_ok in H as (a & _ & H). apply bind_ok in H as (b & _ & H). apply bind_ok in H as (one & _ & H).
  rewrite (f_strict _ _ HF) in H. cbn [negb orb] in H.
  assert (DF : isnil df = true -> df = []) by (destruct df; auto; discriminate).
  destruct (isq one 1).
  { apply guard_ok in H as [G H]. injection H as <-. apply andb_prop in G as [G1 G2].
    rewrite (DF G1) in *. destruct nf; [|discriminate]. split; [|intros; now apply vals_join2].
    intros s Hs. apply agree_join2 in Hs as [A B]. split; auto. apply Ed in B. unfold pi_, pv in B. simpl in B. lra. }
  assert (REST : (if isnil (symbols one) then
          match any_keys one with
          | [k] =>
              v <- op_div (k_raw fk) one (EAny k);;
              if has_any v then Ok None
              else guard (isnil df && sign_any k nf v) (Ok (Some (push k v (join2 m dm))))
          | _ => Ok None
          end
        else Ok None) = Ok (Some m') ->
     (forall s, agree s m' -> agree s m /\ V e = V (inst s q)) /\ (vals W m -> vals W m')).
  { clear H. intros H. destruct (isnil (symbols one)); [|discriminate].
    destruct (any_keys one) as [|k [|]]; try discriminate. apply bind_ok in H as (v & _ & H).
    destruct (has_any v); [discriminate|]. apply guard_ok in H as [G H]. injection H as <-.
    apply andb_prop in G as [G1 G2]. rewrite (DF G1) in *.
    destruct nf as [|n1 [|n2 l]]; try discriminate; destruct n1; try discriminate.
    destruct n2; try discriminate. destruct l; try discriminate.
    simpl in G2. destruct v; try discriminate. apply andb_prop in G2 as [G2 G4]. apply andb_prop in G2 as [G2 G3].
    apply String.eqb_eq in G2 as <-. split.
    - intros s Hs. apply agree_push in Hs as [Hs Hk]. apply agree_join2 in Hs as [A B]. split; auto.
      apply Ed in B. unfold pi_, pv in B. simpl in B. rewrite Hk in B. simpl in B.
      apply Qeq_bool_true in G3. rewrite <- G3 in B.
      apply orb_prop in G4 as [G4|G4]; apply Qeq_bool_true in G4; rewrite G4, ?Q2R_1, ?Q2R_m1 in B; lra.
    - intros Vm. apply vals_push. split; [now apply vals_join2|exact I]. }
  destruct one; try exact (REST H). clear REST.
  apply guard_ok in H as [G H]. injection H as <-. apply andb_prop in G as [G1 G2]. rewrite (DF G1) in *.
  destruct nf as [|n1 [|]]; try discriminate; destruct n1; try discriminate.
  simpl in G2. apply String.eqb_eq in G2 as <-. split.
  - intros s Hs. apply agree_join2 in Hs as [A B]. apply agree_push in A as [A A2]. split; auto.
    apply Ed in B. unfold pi_, pv in B. simpl in B. rewrite A2 in B. simpl in B. rewrite Q2R_1 in B. lra.
  - intros Vm. apply vals_join2; auto. apply vals_push. split; auto. exact I.
Qed.

Theorem eq_plain_sound q e d : eq_plain fk q e = Ok (Some d) -> W e ->
  (forall s, agree1 s d -> V e = V (inst s q)) /\ vals1 W d.
Proof.
  unfold eq_plain. intros H We. destruct (has_any e); [discriminate|].
  exact (run_sound _ _ congr_ev dhook_ok q e d H We).
Qed.

(** *** Matching up to a sum *)
Definition entry_ok (ps : list (expr * string)) (q : expr) (p : string * expr * mts) : Prop :=
  In (pterm p, pname p) ps /\ run fk (dhook fk) q (pterm p) = Ok (Some (snd p)).
Lemma dset_in r s t d p : In p (dset r s t d) -> p = (s, t, d) \/ In p r.
Proof.
  induction r as [|[[s' t'] d'] r IH]; cbn [dset]; [intros [<-|[]]; auto|].
  destruct (String.eqb s s').
  - intros [<-|H]; auto. right. now right.
  - intros [<-|H]; [right; now left|]. destruct (IH H); auto. right. now right.
Qed.
Lemma sum_row_ok ps q es : forall acc w, incl es ps -> sum_row fk q es acc = Ok w ->
  Forall (entry_ok ps q) acc -> Forall (entry_ok ps q) w.
Proof.
  induction es as [|[t s] es IH]; cbn [sum_row]; intros acc w I H A; [now injection H as <-|].
  apply bind_ok in H as (o & Ho & H). apply IH in H; auto.
  - intros x Hx. apply I. now right.
  - destruct o as [d|]; auto. apply Forall_forall. intros p Hp. rewrite Forall_forall in A.
    apply dset_in in Hp as [->|Hp]; auto. split; auto. apply I. now left.
Qed.
Lemma sum_rows_ok qs ps : forall rows, sum_rows fk qs ps = Ok (Some rows) ->
  Forall2 (fun q w => Forall (entry_ok ps q) w) qs rows.
Proof.
  induction qs as [|q qs IH]; cbn [sum_rows]; intros rows H; [injection H as <-; constructor|].
  apply bind_ok in H as (w & Hw & H). destruct w as [|p w]; [discriminate|].
  apply bind_ok in H as (o & Ho & H). destruct o as [ws|]; [|discriminate]. injection H as <-.
  constructor; auto. eapply sum_row_ok; eauto. apply incl_refl.
Qed.
Lemma pick_in rows w p : pick fk rows w = Ok (Some p) -> In p w.
Proof.
  induction w as [|p0 w IH]; cbn [pick]; intros H; [discriminate|]. apply bind_ok in H as (b & _ & H).
  destruct b; [injection H as <-; now left|right; auto].
Qed.
Lemma picks_ok rows ws : forall l, picks fk rows ws = Ok (Some l) -> Forall2 (fun w p => In p w) ws l.
Proof.
  induction ws as [|w ws IH]; cbn [picks]; intros l H; [injection H as <-; constructor|].
  apply bind_ok in H as (o & Ho & H). destruct o as [p|]; [|discriminate]. apply bind_ok in H as (os & Hs & H).
  destruct os as [ps|]; [|discriminate]. injection H as <-. constructor; auto. eapply pick_in; eauto.
Qed.
Lemma agree_joins s l : forall m, agree s (fold_left (fun m p => join m (snd p)) l m) ->
  agree s m /\ Forall (fun p : string * expr * mts => agree1 s (snd p)) l.
Proof.
  induction l as [|p l IH]; simpl; intros m H; [split; auto|]. apply IH in H as [H H2].
  apply agree_join in H as [H H3]. auto.
Qed.
Lemma vals_joins P l : forall m, vals P m -> Forall (fun p : string * expr * mts => vals1 P (snd p)) l ->
  vals P (fold_left (fun m p => join m (snd p)) l m).
Proof.
  induction l as [|p l IH]; simpl; intros m H F; auto. inversion F; subst. apply IH; auto. now apply vals_join.
Qed.

Lemma combine_snd {A B} (l : list A) (l' : list B) : List.length l = List.length l' -> map snd (combine l l') = l' /\ map fst (combine l l') = l.
Proof. revert l'; induction l as [|a l IH]; destruct l'; simpl; intros H; try discriminate; auto. injection H as H. destruct (IH _ H). split; f_equal; auto. Qed.

Lemma NoDup_app_disj {A} (l l' : list A) : NoDup l -> NoDup l' -> (forall x, In x l -> ~ In x l') -> NoDup (l ++ l').
Proof.
  induction 1 as [|a l Ha _ IH]; simpl; auto. intros H' D. constructor; auto.
  intros C. apply in_app_or in C as [C|C]; auto. apply (D a); auto.
Qed.
Lemma split_accounted (ps : list (expr * string)) (l : list (string * expr * mts)) :
  NoDup (map snd ps) -> NoDup (map pname l) -> Forall (fun p => In (pterm p, pname p) ps) l ->
  Rsum (map (fun p => V (fst p)) ps) =
  Rsum (map (fun p => V (pterm p)) l) +
  Rsum (map (fun p => V (fst p)) (filter (fun p => negb (existsb (String.eqb (snd p)) (map pname l))) ps)).
Proof.
  intros N1 N2 F. set (g := fun p => (pterm p, pname p)).
  assert (P : Permutation ps (map g l ++ filter (fun p => negb (existsb (String.eqb (snd p)) (map pname l))) ps)).
  { assert (N1' : NoDup ps) by (apply NoDup_map_inv in N1; auto).
    assert (N2' : NoDup (map g l)).
    { apply (NoDup_map_inv snd). rewrite map_map. exact N2. }
    apply NoDup_Permutation; auto.
    - apply NoDup_app_disj; auto; [now apply NoDup_filter|].
      intros [t s] Hi Hf. apply filter_In in Hf as [_ Hf]. apply negb_true_iff in Hf. simpl in Hf.
      apply in_map_iff in Hi as (p & E & Hp). injection E as <- <-.
      assert (X : existsb (String.eqb (pname p)) (map pname l) = true)
        by (apply existsb_exists; exists (pname p); split; [now apply in_map|apply String.eqb_refl]). congruence.
    - intros [t s]. split.
      + intros Hi. apply in_or_app. destruct (existsb (String.eqb s) (map pname l)) eqn:X.
        * left. apply existsb_exists in X as (s' & Hs & E). apply String.eqb_eq in E as <-.
          apply in_map_iff in Hs as (p & <- & Hp). rewrite Forall_forall in F. pose proof (F _ Hp) as Hq.
          assert (E : t = pterm p).
          { clear -N1 Hi Hq. induction ps as [|[t' s'] ps IH]; [destruct Hi|]. simpl in N1. inversion N1; subst.
            destruct Hi as [E|Hi], Hq as [E'|Hq].
            - congruence.
            - injection E as -> ->. exfalso. apply H1. apply in_map_iff. exists (pterm p, pname p). auto.
            - injection E' as -> ->. exfalso. apply H1. apply in_map_iff. exists (t, pname p). auto.
            - auto. }
          subst t. apply in_map_iff. exists p. auto.
        * right. apply filter_In. split; auto. simpl. now rewrite X.
      + intros Hi. apply in_app_or in Hi as [Hi|Hi].
        * apply in_map_iff in Hi as (p & E & Hp). rewrite Forall_forall in F. rewrite <- E. now apply F.
        * now apply filter_In in Hi as [Hi _]. }
  apply (Permutation_map (fun p => V (fst p))) in P. rewrite (Rsum_perm _ _ P), map_app, Rsum_app, map_map. reflexivity.
Qed.

Theorem eq_sum_sound qs es d rest : eq_sum fk (ESum qs) (ESum es) = Ok (Some (d, rest)) -> W (ESum es) ->
  W rest /\ vals1 W d /\
  forall s, agree1 s d -> V (ESum es) = V (inst s (ESum qs)) + V rest.
Proof.
  unfold eq_sum. cbv zeta. intros H We. apply wd_sum in We. destruct (Nat.ltb _ _); [discriminate|].
  apply bind_ok in H as (rs & Hrs & H). 
  assert (Len : List.length es = List.length rs). { apply mapM_ok in Hrs. clear -Hrs. induction Hrs; simpl; auto. }
  apply bind_ok in H as (o & Ho & H). destruct o as [rows|]; [|discriminate].
  apply bind_ok in H as (o & Hp & H). destruct o as [l|]; [|discriminate].
  apply bind_ok in H as (o & Hc & H). destruct o as [final|]; [|discriminate].
  apply bind_ok in H as (b & _ & H). destruct b; [|discriminate].
  apply guard_ok in H as [G H]. rewrite (f_strict _ _ HF) in G. simpl in G. apply andb_prop in G as [G1 G2].
  apply nodups_NoDup in G1, G2. apply bind_ok in H as (r & Hr & H). injection H as <- <-.
  set (ps := combine es rs) in *. destruct (combine_snd es rs Len) as [C1 C2]. fold ps in C1, C2.
  apply sum_rows_ok in Ho. apply picks_ok in Hp. apply close_ok in Hc as (K1 & K2 & _).
  assert (E : Forall2 (entry_ok ps) qs l).
  { clear -Ho Hp. revert l Hp. induction Ho as [|q w qs rows Hq _ IH]; intros l Hp; inversion Hp; subst; constructor; auto.
    rewrite Forall_forall in Hq. auto. }
  assert (We' : forall t s, In (t, s) ps -> W t).
  { intros t s Hi. apply (in_map fst) in Hi. rewrite C2 in Hi. rewrite Forall_forall in We. auto. }
  assert (S : Forall2 (fun q p => vals1 W (snd p) /\ In (pterm p, pname p) ps /\
     forall s, agree1 s (snd p) -> V (pterm p) = V (inst s q)) qs l).
  { clear -E We' HF. induction E as [|q p qs l [E1 E2] _ IH]; constructor; auto.
    apply (run_sound _ _ congr_ev dhook_ok) in E2 as [R1 R2]; eauto. }
  assert (SF : Forall (fun p => In (pterm p, pname p) ps) l).
  { clear -S. induction S as [|? ? ? ? (A & B & C)]; constructor; auto. }
  apply (g_sum _ _ HG) in Hr as [R1 R2].
  - split; auto. split.
    + apply K2. apply vals_joins; [intros ? ? ? []|]. clear -S. induction S as [|? ? ? ? (A & B & C)]; constructor; auto.
    + intros s Hs. apply K1 in Hs. apply agree_joins in Hs as [_ Hs].
      assert (Q : Rsum (map (fun p => V (pterm p)) l) = V (inst s (ESum qs))).
      { simpl. clear -S Hs. induction S as [|q p qs l (A & B & C) _ IH]; simpl; auto. inversion Hs; subst.
        rewrite (C s) by auto. f_equal. apply IH. auto. }
      rewrite <- Q, R2, map_map.
      rewrite <- (split_accounted ps l); [|now rewrite C1|auto|auto]. simpl. rewrite <- C2 at 1. now rewrite map_map.
  - apply Forall_forall. intros t Ht. apply in_map_iff in Ht as ([t' s'] & <- & Hi). apply filter_In in Hi as [Hi _]. eauto.
Qed.
End MatchSound.

(** The keys of the result of a match are different from each other. *)
Lemma extend_keys k l m : NoDup (map fst m) -> NoDup (map fst (extend k l m)).
Proof.
  assert (I : forall m x, In x (map fst (extend k l m)) -> x = k \/ In x (map fst m)).
  { clear m. induction m as [|[k0 l0] m IH]; cbn [extend]; intros x H; [destruct H as [<-|[]]; auto|].
    destruct (String.eqb_spec k k0) as [->|N]; [right; exact H|]. destruct H as [<-|H]; [right; now left|].
    destruct (IH _ H); auto. right. now right. }
  induction m as [|[k0 l0] m IH]; cbn [extend]; intros H.
  - constructor; auto.
  - destruct (String.eqb_spec k k0) as [->|N]; [exact H|]. simpl in *. inversion H; subst. constructor; auto.
    intros C. apply I in C as [C|C]; auto.
Qed.
Lemma join_keys d : forall m, NoDup (map fst m) -> NoDup (map fst (join m d)).
Proof. induction d as [|p d IH]; intros m H; auto. apply (IH (push (fst p) (snd p) m)). now apply extend_keys. Qed.
Lemma join2_keys d : forall m, NoDup (map fst m) -> NoDup (map fst (join2 m d)).
Proof. induction d as [|p d IH]; intros m H; auto. apply (IH (extend (fst p) (snd p) m)). now apply extend_keys. Qed.

Lemma eqg_keys fk hook : (forall q e m m', hook q e m = Ok (Some m') -> NoDup (map fst m) -> NoDup (map fst m')) ->
  forall q e m b m', eqg fk hook q e m = Ok (b, m') -> NoDup (map fst m) -> NoDup (map fst m').
Proof.
  intros HH.
  assert (L : forall ts, Forall (fun q => forall e m b m', eqg fk hook q e m = Ok (b, m') -> NoDup (map fst m) -> NoDup (map fst m')) ts ->
    forall el m b m', 
    ((fix all (ql el : list expr) (m : mip) {struct ql} : res (bool * mip) :=
    match ql, el with
    | q1 :: ql', e1 :: el' => '(b, m1) <- eqg fk hook q1 e1 m;; if b : bool then all ql' el' m1 else Ok (false, m1)
    | _, _ => Ok (true, m)
    end) ts el m) = Ok (b, m') -> NoDup (map fst m) -> NoDup (map fst m')).
  { induction 1 as [|t ts Ht _ IH]; intros el m b m' H N; [now injection H as <- <-|].
    destruct el as [|e1 el]; [now injection H as <- <-|].
    apply bind_ok in H as ([b1 m1] & Hb & H). apply Ht in Hb; auto.
    destruct b1; [eauto|now injection H as <- <-]. }
  induction q as [p| | | | |s0|k|ts IH|ts IH|b x IHb IHx|i b IHi IHb|f i IHi|i IHi] using expr_ind'; intros e m bb m' H N;
    cbn [eqg] in H; apply bind_ok in H as (eqb & Hq & H); (destruct eqb; [now injection H as <- <-|]);
    try (now injection H as <- <-).
  1:{ injection H as <- <-. now apply extend_keys. }
  all: match type of H with (if negb ?b then _ else _) = _ => destruct b eqn:HA; simpl negb in H; cbv iota in H; [|now injection H as <- <-] end.
  all: apply bind_ok in H as (o & Ho & H); destruct o as [m1|]; [injection H as <- <-; now apply HH in Ho|].
  all: destruct e as [p'| | | | |s0'|k'|ts'|ts'|b' x'|i' b'|f' i'|i']; try (now injection H as <- <-).
  - destruct (Nat.eqb _ _); [|now injection H as <- <-]. eapply L; eauto.
  - destruct (Nat.eqb _ _); [|now injection H as <- <-]. eapply L; eauto.
  - apply bind_ok in H as ([r m1] & H1 & H). apply IHb in H1; auto. destruct r; [eauto|now injection H as <- <-].
  - apply bind_ok in H as ([r m1] & H1 & H). apply IHi in H1; auto. destruct r; [eauto|now injection H as <- <-].
  - destruct (trig_eqb f f'); [eauto|now injection H as <- <-].
  - eauto.
Qed.
Lemma dhook_keys fk q e m m' : dhook fk q e m = Ok (Some m') -> NoDup (map fst m) -> NoDup (map fst m').
Proof.
  unfold dhook. cbv zeta. intros H N. apply bind_ok in H as ([[nf df] dm] & _ & H).
  apply bind_ok in H as (a & _ & H). apply bind_ok in H as (b & _ & H). apply bind_ok in H as (one & _ & H).
  destruct (isq one 1); [apply guard_ok in H as [_ H]; injection H as <-; now apply join2_keys|].
  assert (REST : forall g, (if isnil (symbols one) then
          match any_keys one with
          | [k] =>
              v <- op_div (k_raw fk) one (EAny k);;
              if has_any v then Ok None
              else guard (g k v) (Ok (Some (push k v (join2 m dm))))
          | _ => Ok None
          end
        else Ok None) = Ok (Some m') -> NoDup (map fst m')).
  { clear H. intros g H. destruct (isnil (symbols one)); [|discriminate].
    destruct (any_keys one) as [|k [|]]; try discriminate. apply bind_ok in H as (v & _ & H).
    destruct (has_any v); [discriminate|]. apply guard_ok in H as [_ H]. injection H as <-.
    now apply extend_keys, join2_keys. }
  destruct one; try (eapply (REST (fun k v => negb (k_strict fk) || isnil df && sign_any k nf v)); exact H).
  apply guard_ok in H as [_ H]. injection H as <-. now apply join2_keys, extend_keys.
Qed.
Lemma close_keys fk m d : close fk m = Ok (Some d) -> map fst d = map fst m.
Proof.
  revert d; induction m as [|[k l] m IH]; cbn [close]; intros d H; [now injection H as <-|].
  apply bind_ok in H as (b & Hb & H). destruct b; [|discriminate]. destruct l as [|a l]; [discriminate|].
  apply bind_ok in H as (o & Ho & H). destruct o as [d'|]; [|discriminate]. injection H as <-. simpl. f_equal. auto.
Qed.
Lemma eq_plain_keys fk q e d : eq_plain fk q e = Ok (Some d) -> NoDup (map fst d).
Proof.
  unfold eq_plain, run. destruct (has_any e); [discriminate|]. intros H. apply bind_ok in H as ([b m] & Hb & H).
  destruct b; [|discriminate]. apply close_keys in H. rewrite H.
  apply (eqg_keys _ _ (dhook_keys fk)) in Hb; auto. constructor.
Qed.
Lemma eq_sum_keys fk q e d r : eq_sum fk q e = Ok (Some (d, r)) -> NoDup (map fst d).
Proof.
  unfold eq_sum. cbv zeta. intros H. destruct q; try discriminate. destruct e; try discriminate.
  destruct (Nat.ltb _ _); [discriminate|]. apply bind_ok in H as (rs & _ & H).
  apply bind_ok in H as (o & _ & H). destruct o as [rows|]; [|discriminate].
  apply bind_ok in H as (o & _ & H). destruct o as [l|]; [|discriminate].
  apply bind_ok in H as (o & Hc & H). destruct o as [final|]; [|discriminate].
  apply bind_ok in H as (b & _ & H). destruct b; [|discriminate]. apply guard_ok in H as [_ H].
  apply bind_ok in H as (x & _ & H). injection H as <- <-. apply close_keys in Hc. rewrite Hc.
  assert (G : forall l m, NoDup (map fst m) -> NoDup (map fst (fold_left (fun m (p : string * expr * mts) => join m (snd p)) l m))).
  { clear. induction l as [|p l IH]; simpl; auto. intros. apply IH. now apply join_keys. }
  apply G. constructor.
Qed.

(** The assignment read off a result. *)
Definition asg (d : mts) (k : string) : expr := match lookup k d with Some x => x | None => ERat 0 end.
Lemma agree_asg d : NoDup (map fst d) -> agree1 (asg d) d.
Proof.
  unfold asg. induction d as [|[k0 a] d IH]; intros N k x H; [destruct H|]. simpl in N. inversion N as [|? ? N1 N2]; subst.
  cbn [lookup]. destruct H as [E|H].
  - injection E as <- <-. now rewrite String.eqb_refl.
  - destruct (String.eqb_spec k k0) as [->|_]; [|now apply IH]. exfalso. apply N1. apply in_map_iff. exists (k0, x). auto.
Qed.
(** factor_match returns the values of the factor and of the only other wildcard. *)
Lemma lookup_in {A} k (d : list (string * A)) x : lookup k d = Some x -> In (k, x) d.
Proof.
  induction d as [|[k0 a] d IH]; cbn [lookup]; [discriminate|]. destruct (String.eqb_spec k k0) as [->|]; [intros [= <-]; now left|].
  right; auto.
Qed.
Lemma factor_match_ok fkey akey d f a (P : expr -> Prop) : factor_match fkey akey d = Ok (f, a) ->
  NoDup (map fst d) -> vals1 P d -> P f /\ P a /\ exists s, agree1 s d /\ s fkey = f /\ s akey = a.
Proof.
  unfold factor_match. intros H N VP. destruct (lookup fkey d) as [f'|] eqn:L; [|discriminate].
  destruct (lookup akey d) as [a'|] eqn:L'; [|discriminate]. destruct (Nat.eqb _ _); [|discriminate]. injection H as <- <-.
  apply lookup_in in L, L'. split; [eapply VP; eauto|]. split; [eapply VP; eauto|].
  exists (asg d). pose proof (agree_asg d N) as Ag. auto.
Qed.
