(** * PropsR: top-level helpers (C83 symbols(text), C84 comparisons of numbers, C85 diff without a variable). *)
From Coquelicot Require Import Coquelicot.
From Verif Require Import Base Expr Kernel Mono Funcs FMono Calc Sem RealLemmas Sound Api CalcSound Regex Oracle PropsA PropsB PropsC.
Local Open Scope string_scope.

(** ** C83: symbols(text) *)
Fixpoint no_space (s : string) : Prop :=
  match s with EmptyString => True | String c r => c <> " "%char /\ no_space r end.
Definition join (l : list string) : string := String.concat " " l.

Lemma join_cons w x l : join (w :: x :: l) = w ++ String " "%char (join (x :: l)).
Proof. reflexivity. Qed.
Lemma split_ne s : split_sp s <> [].
Proof. destruct s as [|c r]; simpl; [discriminate|]. destruct (Ascii.eqb c " "); [discriminate|]. destruct (split_sp r); discriminate. Qed.
Lemma split_join s : join (split_sp s) = s.
Proof.
  induction s as [|c r IH]; auto. cbn [split_sp]. destruct (Ascii.eqb_spec c " ") as [->|N].
  - destruct (split_sp r) as [|w ws] eqn:E; [now apply split_ne in E|]. rewrite join_cons. simpl. now rewrite IH.
  - destruct (split_sp r) as [|w ws] eqn:E; [now apply split_ne in E|].
    transitivity (String c (join (w :: ws))); [now destruct ws|now rewrite IH].
Qed.
Lemma split_nospace s : Forall no_space (split_sp s).
Proof.
  induction s as [|c r IH]; [repeat constructor|]. cbn [split_sp]. destruct (Ascii.eqb_spec c " ") as [->|N].
  - constructor; [exact I|auto].
  - destruct (split_sp r) as [|w ws]; [repeat constructor; auto|]. inversion IH; subst. constructor; auto. split; auto.
Qed.
Lemma split_word w r : no_space w -> split_sp (w ++ String " "%char r) = w :: split_sp r.
Proof.
  induction w as [|c w IH]; intros H; simpl; auto. destruct H as [N H]. destruct (Ascii.eqb_spec c " "); [congruence|]. now rewrite IH.
Qed.
Lemma split_single w : no_space w -> split_sp w = [w].
Proof.
  induction w as [|c w IH]; intros H; simpl; auto. destruct H as [N H]. destruct (Ascii.eqb_spec c " "); [congruence|]. now rewrite IH.
Qed.

Lemma mapM_symbol names : Forall (fun s => s <> "") names -> mapM api_symbol names = Ok (map ESym names).
Proof.
  induction 1 as [|w l Hw F IH]; [reflexivity|]. cbn [mapM map]. rewrite IH. destruct w; [congruence|]. reflexivity.
Qed.
Lemma mapM_empty names : In "" names -> mapM api_symbol names = Raise AssertionError.
Proof.
  induction names as [|w l IH]; intros H; [destruct H|]. cbn [mapM]. destruct w as [|c w]; [reflexivity|].
  destruct H as [H|H]; [discriminate|]. cbn [api_symbol bind]. now rewrite IH.
Qed.
Lemma split_names names : names <> [] -> Forall no_space names -> split_sp (join names) = names.
Proof.
  intros NE F. induction F as [|w l Hw F IH]; [congruence|]. destruct l as [|x l].
  - simpl. now apply split_single.
  - rewrite join_cons, split_word by auto. f_equal. apply IH; discriminate.
Qed.
(** Names joined by single spaces come back as exactly these symbols: one symbol by itself, several as a list. *)
Theorem c83_symbols names : names <> [] -> Forall no_space names -> Forall (fun s => s <> "") names ->
  api_symbols (join names) = Ok (match names with [s] => inl (ESym s) | _ => inr (map ESym names) end).
Proof.
  intros NE F E. unfold api_symbols. rewrite split_names, mapM_symbol by auto. cbn [bind].
  now destruct names as [|a [|b l]].
Qed.
(** Every text either is such a list of names, or has an empty word (it is empty, begins or ends with a space, or has two
    adjacent spaces), and then AssertionError is raised. *)
Theorem c83_any_text text :
  (exists names, Forall no_space names /\ Forall (fun s => s <> "") names /\ names <> [] /\ join names = text /\
     api_symbols text = Ok (match names with [s] => inl (ESym s) | _ => inr (map ESym names) end)) \/
  (exists names, Forall no_space names /\ In "" names /\ join names = text) /\ api_symbols text = Raise AssertionError.
Proof.
  destruct (Exists_dec (fun s => s = "") (split_sp text) (fun s => string_dec s "")) as [X|X].
  - right. apply Exists_exists in X as (s & Hs & ->). split.
    + exists (split_sp text). auto using split_nospace, split_join.
    + unfold api_symbols. now rewrite mapM_empty.
  - left. exists (split_sp text). assert (E : Forall (fun s => s <> "") (split_sp text)) by now apply Forall_Exists_neg.
    split; [apply split_nospace|]. split; [exact E|]. split; [apply split_ne|]. split; [apply split_join|].
    rewrite <- (split_join text) at 1. apply c83_symbols; auto using split_nospace, split_ne.
Qed.
Example c83_ex : api_symbols "x y theta" = Ok (inr [ESym "x"; ESym "y"; ESym "theta"]) /\ api_symbols "x" = Ok (inl (ESym "x")) /\
  api_symbols "x  y" = Raise AssertionError /\ api_symbols "" = Raise AssertionError.
Proof. repeat split; reflexivity. Qed.

(** ** C84: comparisons *)
Local Open Scope R_scope.
(** rationals and infinities in the extended reals *)
Definition ext_val (e : expr) : option Rbar :=
  match e with ERat q => Some (Finite (Q2R q)) | EInf => Some p_infty | ENegInf => Some m_infty | _ => None end.
Definition holds (o : cmp) (x y : Rbar) : Prop :=
  match o with Le => Rbar_le x y | Lt => Rbar_lt x y | Ge => Rbar_le y x | Gt => Rbar_lt y x end.

Lemma ext_leb_ok a b x y : ext_val a = Some x -> ext_val b = Some y ->
  exists p q, num_value a = Some p /\ num_value b = Some q /\ (ext_leb p q = true <-> Rbar_le x y).
Proof.
  intros A B. destruct a; try discriminate; destruct b; try discriminate; injection A as <-; injection B as <-;
    cbn [num_value]; eexists _, _; (split; [reflexivity|]); (split; [reflexivity|]); simpl; try tauto; try (split; [discriminate|tauto]).
  rewrite Qle_bool_iff. split; [apply Qle_Rle|apply Rle_Qle].
Qed.
Theorem c84_compare o a b x y : ext_val a = Some x -> ext_val b = Some y ->
  exists t, num_cmp o a b = Ok t /\ (t = true <-> holds o x y).
Proof.
  intros A B. destruct (ext_leb_ok a b x y A B) as (p & q & Np & Nq & L1).
  destruct (ext_leb_ok b a y x B A) as (q' & p' & Nq' & Np' & L2).
  assert (p' = p) by congruence. assert (q' = q) by congruence. subst p' q'.
  exists (ext_cmp o p q). unfold num_cmp. rewrite Np, Nq. split; auto.
  destruct o; cbn [ext_cmp holds]; auto.
  - rewrite negb_true_iff. rewrite <- not_true_iff_false, L2. split; [apply Rbar_not_le_lt|apply Rbar_lt_not_le].
  - rewrite negb_true_iff. rewrite <- not_true_iff_false, L1. split; [apply Rbar_not_le_lt|apply Rbar_lt_not_le].
Qed.
(** sign is -1 exactly for negative numbers, else 1. *)
Theorem c84_sign a x : ext_val a = Some x -> num_sign a = Ok (if Rbar_lt_dec x (Finite 0%R) then -1 else 1)%Z.
Proof.
  intros A. unfold num_sign. destruct (ext_leb_ok (ERat 0) a (Finite (Q2R 0)) x eq_refl A) as (p & q & Np & Nq & L).
  injection Np as <-. rewrite Nq. replace (Q2R 0) with 0 in L by (unfold Q2R; simpl; lra). f_equal.
  destruct (ext_leb (Fin 0) q), (Rbar_lt_dec x (Finite 0%R)) as [l|l]; auto; exfalso.
  - apply Rbar_lt_not_le in l. tauto.
  - apply Rbar_not_lt_le in l. apply L in l. discriminate.
Qed.
(** A comparison of a number with anything that is not a number is False - both ways round. *)
Theorem c84_not_number o a b : num_value a = None -> is_num b = true -> num_cmp o b a = Ok false /\ num_cmp o a b = Ok false.
Proof. intros A B. destruct b; try discriminate; unfold num_cmp; rewrite A; auto. Qed.
(** pi is greater than its double, but is not reported to be. *)
Theorem c84_pi_refuted : num_cmp Gt EPi (ERat q_pi) = Ok false /\ PI > Q2R q_pi.
Proof. split; [vm_compute; reflexivity|apply pi_gt_q_pi]. Qed.
Example c84_ex : num_cmp Lt (ERat (1 # 3)) (ERat (1 # 2)) = Ok true /\ num_cmp Ge (ERat 5) EInf = Ok false /\
  num_cmp Le (ERat 1) (ESym "x") = Ok false.
Proof. repeat split; vm_compute; reflexivity. Qed.

(** Rat(a, b) is a/b in lowest terms. *)
Theorem c84_rat a b : b <> 0%Z -> exists q, rat_of_ints a b = Ok (ERat q) /\ Q2R q = IZR a / IZR b /\ Qred q = q.
Proof.
  intros B. unfold rat_of_ints. apply Z.eqb_neq in B as B'. rewrite B'. eexists. split; [reflexivity|].
  split; [|apply Qred_complete, Qred_correct].
  rewrite (Qeq_eqR _ _ (Qred_correct _)). rewrite Q2R_div.
  - unfold Q2R. simpl. field. now apply not_0_IZR.
  - intros C. apply B. unfold Qeq in C. simpl in C. lia.
Qed.
Theorem c84_rat_zero a : rat_of_ints a 0 = Raise ZeroDivisionError.
Proof. reflexivity. Qed.

(** ** C85: diff(e, None) *)
(** If it returns an expression, e has exactly one symbol and the result is the derivative in that symbol. *)
Theorem c85_diff c (HX : fpow_exact (fpow c)) dom n (d : nat) (rho : env) (a b : R) (e e' : expr) :
  api_diff (GF dom c n) d e None = Ok (Some e') ->
  exists v, (forall s, contains s e = true <-> s = v) /\
  ((forall t, a < t < b -> right_at (upd rho v t) dom) -> (forall t, a < t < b -> wd (upd rho v t) e) ->
   api_diff (PF c n) d e None = Ok (Some e') /\
   forall t, a < t < b -> wd (upd rho v t) e' /\ is_derive (fun s => ev (upd rho v s) e) t (ev (upd rho v t) e')).
Proof.
  intros H. unfold api_diff in H |- *. destruct (symbols e) as [|v [|w l]] eqn:S; try discriminate.
  apply bind_ok in H as (r & D & H). injection H as ->. exists v. split.
  - intros s. rewrite (contains_symbols s e), S. simpl. split; [intros [->|[]]; auto|intros ->; auto].
  - intros R W. destruct (c11_diff c HX dom n n (le_n n) d rho v a b e e' R W D) as [E T]. split; auto. now rewrite E.
Qed.
(** With no symbol or several it does not raise: it returns the exception as a value. *)
Theorem c85_value_error_refuted fk n e : (forall v, ~ (forall s, contains s e = true <-> s = v)) ->
  api_diff fk n e None = Ok None.
Proof.
  intros H. unfold api_diff. destruct (symbols e) as [|v [|w l]] eqn:S; auto. exfalso. apply (H v).
  intros s. rewrite (contains_symbols s e), S. simpl. split; [intros [->|[]]; auto|intros ->; auto].
Qed.
Example c85_ex :
  let x := ESym "x" in let e := ESum [EPow x (ERat 2); EProd [ERat 3; x]; ERat 1] in
  api_diff (GF (fun _ => true) exact_cfg 12) 9 e None = Ok (Some (ESum [EProd [ERat 2; x]; ERat 3])) /\
  api_diff (GF (fun _ => true) exact_cfg 12) 9 (ESum [x; ESym "y"]) None = Ok None.
Proof. split; vm_compute; reflexivity. Qed.
