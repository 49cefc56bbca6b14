(** * HerTrans: hereditary properties through the integration transforms. *)
From Coquelicot Require Import Coquelicot.
From Verif Require Export HerTrig Trans.

Section Trans.
Context (P : expr -> Prop) (HP : HerF P) (fk : fkern) (HF : FHer P fk).
Context (rng : string -> expr -> bool).
Notation hall := (hall P).
Notation P' := (hx P).
Let HK := fh_kern _ _ HF.

(** ** Polynomials *)
Lemma add_at_h x l : P' x -> Forall P' l -> forall i, hall (add_at fk l i x).
Proof.
  intros Hx. induction 1 as [|a l Ha Hl IH]; intros i.
  - induction i as [|i IHi]; cbn [add_at]; [repeat constructor; auto|]. apply (hall_bind P (HA:=holds_list P expr)); [auto|].
    intros r Hr. constructor; auto. now apply h_rat'.
  - destruct i as [|i]; cbn [add_at].
    + apply (hall_bind P (HA:=holds_expr P)); [her|]. intros s Hs. constructor; auto.
    + apply (hall_bind P (HA:=holds_list P expr)); [auto|]. intros s Hs. constructor; auto.
Qed.
Lemma add_answer_h ans m c i : Forall P' ans -> P' m -> P' c -> hall (add_answer fk ans m c i).
Proof.
  intros. unfold add_answer. apply (hall_bind P (HA:=holds_expr P)); [her|]. intros s Hs. now apply add_at_h.
Qed.
Lemma to_poly_h v e : P' e -> forall ans m, Forall P' ans -> P' m -> hall (to_poly fk v ans m e).
Proof.
  induction e as [q| | | |s|s| |ts IH|ts IH|b x IHb IHx|i b IHi IHb|f i IHi|i IHi] using expr_ind';
    intros He ans m Ha Hm; cbn [to_poly]; (destruct (negb _); [now apply add_answer_h|]); try exact I.
  - apply add_answer_h; auto. now apply h_rat'.
  - apply hall_guard. hsat. clear He. revert ans Ha. induction IH as [|t l Ht _ IHl]; intros ans Ha; [exact Ha|]. hsat.
    apply (hall_bind P (HA:=holds_list P expr)); [apply Ht; auto; now apply h_rat'|]. intros a Haa. apply IHl; auto.
  - destruct ts as [|t [|o [|? ?]]]; try exact I; destruct t; try exact I. apply hall_guard.
    inversion IH as [|? ? _ IH']; subst. inversion IH' as [|? ? Ho _]; subst. hsat. apply Ho; auto.
  - destruct x; try exact I. destruct (_ && _); [|exact I]. apply add_answer_h; auto. now apply h_rat'.
Qed.
Lemma to_const_polynomial_h n v e : P' e -> hall (to_const_polynomial fk n v e).
Proof.
  intros. unfold to_const_polynomial. apply (hall_bind P (HA:=holds_expr P)); [now apply expand_if_h|].
  intros e1 H1. apply to_poly_h; auto. now apply h_rat'.
Qed.
Lemma catchA_h {A} {HA : Holds P A} (r : res A) : hall r -> hall (catchA r).
Proof. destruct r as [a|x|s]; cbn; auto. destruct x; cbn; auto. Qed.
Lemma poly_expr_go_h v l : P' (ESym v) -> Forall P' l -> forall i a, P' a -> hall (poly_expr_go fk v i a l).
Proof.
  intros Hv. induction 1 as [|x l Hx Hl IH]; intros i a Ha; cbn [poly_expr_go]; [exact Ha|].
  apply (hall_bind P (HA:=holds_expr P)); [her|]. intros p Hp. apply (hall_bind P (HA:=holds_expr P)); [her|]. intros m Hm.
  apply (hall_bind P (HA:=holds_expr P)); [her|]. intros s Hs. apply IH; auto.
Qed.
Lemma polynomial_to_expr_h v l : P' (ESym v) -> Forall P' l -> hall (polynomial_to_expr fk v l).
Proof. intros. apply poly_expr_go_h; auto. now apply h_rat'. Qed.
Lemma rid_zeros_h l : Forall P' l -> Forall P' (rid_zeros l).
Proof. induction 1 as [|a l Ha _ IH]; cbn [rid_zeros]; auto. destruct (rid_zeros l); auto. destruct (isq a 0); auto. Qed.
Lemma lastM_h l : Forall P' l -> hall (lastM l).
Proof. induction 1 as [|a l Ha _ IH]; cbn [lastM]; [exact I|]. destruct l; auto. Qed.
Lemma sub_arr_h l : forall m, Forall P' l -> Forall P' m -> hall (sub_arr fk l m).
Proof.
  induction l as [|a l IH]; intros [|b m] Hl Hm; cbn [sub_arr]; try exact I; [constructor|]. hsat.
  apply (hall_bind P (HA:=holds_expr P)); [her|]. intros s Hs. apply (hall_bind P (HA:=holds_list P expr)); [auto|].
  intros r Hr. constructor; auto.
Qed.
Lemma set_nth_h i x l : P' x -> Forall P' l -> Forall P' (set_nth i x l).
Proof. intros Hx Hl. revert i. induction Hl; intros [|i]; cbn [set_nth]; auto. Qed.
Lemma repeat_h k : Forall P' (repeat (ERat 0) k).
Proof. induction k; cbn; constructor; auto. now apply h_rat'. Qed.
Lemma pd_loop_h n : forall num den q, Forall P' num -> Forall P' den -> Forall P' q -> hall (pd_loop fk n num den q).
Proof.
  induction n as [|n IH]; intros num den q Hn Hd Hq; cbn [pd_loop]; [exact I|].
  destruct (Nat.ltb _ _); [split; auto|]. apply (hall_bind P (HA:=holds_expr P)); [now apply lastM_h|]. intros ln Hln.
  apply (hall_bind P (HA:=holds_expr P)); [now apply lastM_h|]. intros ld Hld.
  apply (hall_bind P (HA:=holds_expr P)); [her|]. intros x Hx. apply hall_guard.
  apply (hall_bind P (HA:=holds_list P expr)); [apply (hall_mapM P (HA:=holds_expr P)); auto; intros; her|]. intros m Hm.
  apply (hall_bind P (HA:=holds_list P expr)); [apply sub_arr_h; auto; apply app_holds; auto; apply repeat_h|]. intros num' Hn'.
  apply IH; auto; [now apply rid_zeros_h|now apply set_nth_h].
Qed.
Lemma poly_div_h n v a b : P' (ESym v) -> Forall P' a -> Forall P' b -> hall (poly_div fk n v a b).
Proof.
  intros Hv Ha Hb. unfold poly_div. apply (hall_bind P (HA:=holds_prod P (list expr) (list expr))); [apply pd_loop_h; auto; apply repeat_h|].
  intros [rem quot] [Hr Hq].
  apply (hall_bind P (HA:=holds_expr P)); [now apply polynomial_to_expr_h|]. intros re Hre.
  apply (hall_bind P (HA:=holds_expr P)); [now apply polynomial_to_expr_h|]. intros de Hde.
  apply (hall_bind P (HA:=holds_expr P)); [her|]. intros r Hr'.
  apply (hall_bind P (HA:=holds_expr P)); [now apply polynomial_to_expr_h|]. intros qe Hqe. her.
Qed.
Lemma invert_h m : Forall (Forall P') m -> hall (invert fk m).
Proof.
  intros Hm. unfold invert. destruct m as [|r1 m]; [exact I|].
  assert (T : hall (if negb (forallb (fun x => Nat.eqb (List.length x) (List.length r1)) (r1 :: m)) then Raise ValueError
      else if Nat.eqb (List.length r1) (List.length (r1 :: m)) then Raise NotImplementedError
      else Raise AssertionError : res (option (list (list expr)))))
    by (destruct (negb _); [exact I|]; destruct (Nat.eqb _ _); exact I).
  destruct r1 as [|a [|b [|]]]; try exact T. destruct m as [|[|c [|d [|]]] [|]]; try exact T. clear T. hsat.
  apply (hall_bind P (HA:=holds_expr P)); [her|]. intros p Hp. apply (hall_bind P (HA:=holds_expr P)); [her|]. intros q Hq.
  apply (hall_bind P (HA:=holds_expr P)); [her|]. intros det Hdet. destruct (isq det 0); [exact I|].
  apply (hall_bind P (HA:=holds_expr P)); [her|]. intros e11 H11. apply (hall_bind P (HA:=holds_expr P)); [her|]. intros nb Hnb.
  apply (hall_bind P (HA:=holds_expr P)); [her|]. intros e12 H12. apply (hall_bind P (HA:=holds_expr P)); [her|]. intros nc Hnc.
  apply (hall_bind P (HA:=holds_expr P)); [her|]. intros e21 H21. apply (hall_bind P (HA:=holds_expr P)); [her|]. intros e22 H22.
  repeat (apply Forall_cons || apply Forall_nil); auto.
Qed.

(** ** The table of integrals *)
Lemma std_trig_h : Forall (fun p => forall v, P' v -> hall (snd p v)) (std_trig fk).
Proof. unfold std_trig. repeat (apply Forall_cons || apply Forall_nil); cbn [snd]; intros v Hv; her. Qed.
Lemma table_loop_h v e l : P' (ESym v) -> Forall (fun p => forall v, P' v -> hall (snd p v)) l -> hall (table_loop v e l).
Proof.
  intros Hv. induction 1 as [|[q f] r Hf _ IH]; cbn [table_loop]; [exact I|]. destruct (eq_with_var _ _ _ _); [|exact IH].
  apply (hall_bind P (HA:=holds_expr P)); [now apply Hf|]. intros a Ha. exact Ha.
Qed.
Lemma table_h v e : P' (ESym v) -> P' e -> hall (table fk v e).
Proof.
  intros Hv He. pose proof (table_loop_h v e _ Hv std_trig_h) as T. unfold table. destruct (negb _); [her|].
  destruct e; try exact T; [her|]. hsat. destruct (_ && _); [destruct (isq _ _); her|].
  destruct (_ && _); [her|exact T].
Qed.

(** ** The transforms *)
Lemma pull_go_h v l : forall pre, Forall P' pre -> Forall P' l -> hall (pull_go fk v pre l).
Proof.
  induction l as [|t r IH]; intros pre Hp Hl; cbn [pull_go]; [exact I|]. hsat. destruct (negb _).
  - apply (hall_bind P (HA:=holds_expr P)); [her|]. intros p Hpp. split; auto.
  - apply IH; auto. apply app_holds; auto.
Qed.
Lemma pull_const_h v e : P' e -> hall (pull_const fk v e).
Proof. intros H. unfold pull_const. destruct e; try exact I. hsat. now apply pull_go_h. Qed.
Lemma two_polys_h n v a b : P' a -> P' b ->
  hall (catchA (a <- to_const_polynomial fk n v a;; b <- to_const_polynomial fk n v b;; Ok (a, b))).
Proof.
  intros Ha Hb. apply catchA_h. apply (hall_bind P (HA:=holds_list P expr)); [now apply to_const_polynomial_h|]. intros x Hx.
  apply (hall_bind P (HA:=holds_list P expr)); [now apply to_const_polynomial_h|]. intros y Hy. split; auto.
Qed.
Lemma poly_division_h n v e : P' (ESym v) -> P' e -> hall (poly_division fk n v e).
Proof.
  intros Hv He. unfold poly_division. destruct (symbols e) as [|s [|? ?]]; try exact I. destruct e; try exact I. hsat.
  destruct (negb _); [exact I|]. apply (hall_bind P (HA:=holds_prod P expr expr)); [now apply numdenF_h|]. intros [num den] [Hn Hd].
  destruct (isq den 1); [exact I|].
  apply (hall_bind P (HA:=holds_option P (list expr * list expr))); [now apply two_polys_h|]. intros [[a b]|] Hab; [|exact I].
  destruct Hab as [Ha Hb]. destruct (Nat.ltb _ _); [exact I|].
  apply (hall_bind P (HA:=holds_expr P)); [now apply poly_div_h|]. intros r Hr. exact Hr.
Qed.
Lemma expand_step_h n e : P' e -> hall (expand_step fk n e).
Proof.
  intros He. unfold expand_step. apply hall_bind0. intros [|]; [|exact I].
  apply (hall_bind P (HA:=holds_expr P)); [now apply expandE_h|]. intros r Hr. exact Hr.
Qed.
Lemma transpose2_h a : forall b, Forall P' a -> Forall P' b -> hall (transpose2 a b).
Proof.
  induction a as [|x a IH]; intros [|y b] Ha Hb; cbn [transpose2]; try exact I; [constructor|]. hsat.
  apply (hall_bind P (HA:=holds_list P (list expr))); [auto|]. intros r Hr. constructor; auto. repeat constructor; auto.
Qed.
Lemma dot2_h r n0 n1 : Forall P' r -> P' n0 -> P' n1 -> hall (dot2 fk r n0 n1).
Proof. intros. unfold dot2. destruct r as [|a [|b [|]]]; try exact I. her. Qed.
Lemma partial_fractions_h n v e : P' e -> hall (partial_fractions fk n v e).
Proof.
  intros He. unfold partial_fractions. destruct e; try exact I. hsat.
  apply (hall_bind P (HA:=holds_prod P expr expr)); [now apply numdenF_h|]. intros [num den] [Hn Hd]. cbn [fst snd] in *.
  destruct (isq den 1); [exact I|].
  apply (hall_bind P (HA:=holds_option P (list expr * list expr))); [now apply two_polys_h|]. intros [[nl dl]|] Hab; [|exact I].
  destruct Hab as [Hnl Hdl]. cbn [fst snd] in *. destruct (Nat.leb _ _); [exact I|].
  apply (hall_bind P (HA:=holds_expr P)).
  { destruct den; try (apply hall_ok; now apply h_rat'); [|exact Hd]. apply factorE_h; auto. apply (i_sum P HP _ Hd). }
  intros fd Hfd. destruct fd as [| | | | | | | |[|d1 [|d2 [|]]]| | | | ]; try exact I. hn. hsat.
  destruct (_ && _); [|exact I].
  apply (hall_bind P (HA:=holds_list P expr)); [now apply to_const_polynomial_h|]. intros l1 Hl1.
  apply (hall_bind P (HA:=holds_list P expr)); [now apply to_const_polynomial_h|]. intros l2 Hl2.
  apply (hall_bind P (HA:=holds_list P (list expr))); [now apply transpose2_h|]. intros m Hm.
  apply (hall_bind P (HA:=holds_option P (list (list expr)))); [now apply invert_h|]. intros [inv|] Hi; [|exact I].
  destruct inv as [|r1 [|r2 [|]]]; try exact I. hn. hsat.
  apply (hall_bind P (HA:=holds_prod P expr expr)).
  { destruct nl as [|x [|y [|]]]; try exact I; hn; hsat; split; hn; auto. now apply h_rat'. }
  intros [n0 n1] [Hn0 Hn1]. cbn [fst snd] in *. hn.
  apply (hall_bind P (HA:=holds_expr P)); [now apply dot2_h|]. intros a0 Ha0.
  apply (hall_bind P (HA:=holds_expr P)); [now apply dot2_h|]. intros a1 Ha1. hn. her.
Qed.
Lemma usub_h v y e u g : P' u -> P' g -> hall (usub fk rng v y e u g).
Proof. intros. unfold usub. apply hall_guard. split; auto. Qed.

Let HKr := fh_raw _ _ HF.
Lemma linear_of_h v e : P' (ESym v) -> P' e -> hall (linear_of fk v e).
Proof.
  intros Hv He. unfold linear_of. cbv zeta. destruct e; try exact I.
  - apply hall_bind0. intros [|]; [|exact I]. split; [exact He|exact I].
  - apply (hall_bind P (HA:=holds_expr P)); [her|]. intros q Hq. destruct (negb _); [split; [exact He|exact I]|].
    apply (hall_bind P (HA:=holds_expr P)); [destruct (is_sub _); her|]. intros e1 H1.
    apply (hall_bind P (HA:=holds_prod P expr _)); [now apply rcf_h|]. intros [xyz z] [Hx _]. cbn [fst snd] in *.
    destruct xyz; try exact I. hn. hsat. destruct (_ && _); [|exact I].
    apply (hall_bind P (HA:=holds_expr P)); [her|]. intros co Hco. destruct (isq co 1); [exact I|].
    apply (hall_bind P (HA:=holds_expr P)); [destruct (is_num co); her|]. intros ca Hca.
    apply (hall_bind P (HA:=holds_expr P)); [her|]. intros ix Hix.
    apply (hall_bind P (HA:=holds_expr P)); [her|]. intros ic Hic.
    apply (hall_bind P (HA:=holds_expr P)); [her|]. intros u Hu. split; auto.
Qed.
Notation OE := (holds (P:=P) (A:=option expr * option expr)).
Lemma linear_check_h v e : P' (ESym v) -> P' e -> forall s, OE s -> hall (linear_check fk v e s).
Proof.
  intros Hv.
  assert (L : forall ts, Forall (fun e => P' e -> forall s, OE s -> hall (linear_check fk v e s)) ts -> Forall P' ts ->
    forall s, OE s -> hall
    ((fix go (l : list expr) s : res (bool * (option expr * option expr)) :=
    match l with
    | [] => Ok (true, s)
    | t :: r => '(b, s') <- linear_check fk v t s;; if b : bool then go r s' else Ok (false, s')
    end) ts s)).
  { induction 1 as [|t l Ht _ IHl]; intros Hl s Hs; [split; [exact I|exact Hs]|]. hsat.
    apply (hall_bind P (HA:=holds_prod P bool (option expr * option expr))); [auto|]. intros [b s'] [_ Hs'].
    destruct b; [auto|split; [exact I|exact Hs']]. }
  assert (B2 : forall a b s, (forall s, OE s -> hall (linear_check fk v a s)) -> (forall s, OE s -> hall (linear_check fk v b s)) -> OE s ->
    hall ('(r, s1) <- linear_check fk v a s;; if r : bool then linear_check fk v b s1 else Ok (false, s1))).
  { intros a b s Ha Hb Hs. apply (hall_bind P (HA:=holds_prod P bool (option expr * option expr))); [auto|]. intros [r s1] [_ Hs1].
    destruct r; [auto|split; [exact I|exact Hs1]]. }
  induction e as [q| | | |s|s|k|ts IH|ts IH|b x IHb IHx|i b IHi IHb|f i IHi|i IHi] using expr_ind';
    intros He st Hst; cbn [linear_check]; (destruct (negb _); [split; [exact I|exact Hst]|]);
    (eapply (hall_bind P); [apply linear_of_h; auto|]); intros [[u ic]|] Ho.
  all: try (destruct (fst st) eqn:Es; [apply hall_bind0; intros bb; split; [exact I|exact Hst]|];
    split; [exact I|]; split; [exact (proj1 Ho)|]; destruct ic; [exact (proj2 Ho)|exact (proj2 Hst)]).
  all: try (split; [exact I|exact Hst]).
  all: clear Ho; hsat; auto.
Qed.
Lemma linear_usub_h n v y e : P' (ESym v) -> P' (ESym y) -> P' e -> hall (linear_usub fk rng n v y e).
Proof.
  intros Hv Hy He. unfold linear_usub. destruct (Nat.ltb _ _); [exact I|].
  apply (hall_bind P (HA:=holds_prod P bool (option expr * option expr))); [apply linear_check_h; auto; split; exact I|].
  intros [b [u ic]] [_ [Hu Hic]]. destruct b; [|exact I]. destruct u as [u|]; [|exact I]. cbn [fst snd] in *. hn.
  apply (hall_bind P (HA:=holds_expr P)); [her|]. intros du Hdu.
  apply (hall_bind P (HA:=holds_expr P)).
  { destruct ic as [c|]; [|her]. apply hall_guard. apply (hall_bind P (HA:=holds_expr P)); [her|]. intros nw Hnw.
    apply (hall_bind P (HA:=holds_expr P)); [her|]. intros u' Hu'. apply hall_guard. her. }
  intros g0 Hg0. apply (hall_bind P (HA:=holds_expr P)); [her|]. intros g Hg.
  apply (hall_bind P (HA:=holds_prod P expr expr)); [now apply usub_h|]. auto.
Qed.
Lemma poly_u_go_h v l : forall pre, Forall P' pre -> Forall P' l -> hall (poly_u_go fk v pre l).
Proof.
  induction l as [|t r IH]; intros pre Hp Hl; cbn [poly_u_go]; [exact I|]. hsat.
  assert (G : hall (poly_u_go fk v (pre ++ [t]) r)) by (apply IH; auto; apply app_holds; auto).
  assert (Fd : forall k : res expr, hall k -> hall (n' <- k;; rest <- k_prod fk (pre ++ r);; Ok (Some (n', rest)))).
  { intros k Hk. apply (hall_bind P (HA:=holds_expr P)); [auto|]. intros n' Hn'. apply (hall_bind P (HA:=holds_expr P)); [her|].
    intros rest Hr. split; auto. }
  destruct t; try (destruct (is_var _ _); [apply Fd; now apply h_rat'|exact G]). hsat.
  destruct (_ && _); [|exact G]. apply Fd. her.
Qed.
Lemma poly_usub_h n v y e : P' (ESym v) -> P' (ESym y) -> P' e -> hall (poly_usub fk rng n v y e).
Proof.
  intros Hv Hy He. unfold poly_usub. destruct e; try exact I. pose proof He as He'. hsat.
  apply (hall_bind P (HA:=holds_option P (expr * expr))); [now apply poly_u_go_h|]. intros [[x rest]|] Hx; [|exact I]. destruct Hx as [Hx Hr].
  cbn [fst snd] in *. hn. destruct (isq x 0); [exact I|]. apply (hall_bind P (HA:=holds_expr P)); [her|]. intros u Hu. cbv zeta.
  destruct (_ && _); [|exact I]. apply (hall_bind P (HA:=holds_expr P)); [her|]. intros du Hdu.
  apply (hall_bind P (HA:=holds_expr P)); [her|]. intros g0 Hg0. apply (hall_bind P (HA:=holds_expr P)); [her|]. intros g Hg.
  apply (hall_bind P (HA:=holds_prod P expr expr)); [now apply usub_h|]. auto.
Qed.
Lemma trig_dy_h f y : P' (ESym y) -> hall (trig_dy fk f y).
Proof. intros Hy. unfold trig_dy. cbv zeta. destruct f; her. Qed.
Lemma trig_usub_h v y e : P' (ESym v) -> P' (ESym y) -> P' e -> hall (trig_usub fk rng v y e).
Proof.
  intros Hv Hy He. unfold trig_usub. destruct (trig_key v e) as [f|]; [|exact I]. cbv zeta.
  apply (hall_bind P (HA:=holds_expr P)); [her|]. intros g0 Hg0.
  apply (hall_bind P (HA:=holds_expr P)); [now apply trig_dy_h|]. intros d Hd.
  apply (hall_bind P (HA:=holds_expr P)); [her|]. intros g Hg. apply hall_guard.
  apply (hall_bind P (HA:=holds_prod P expr expr)); [apply usub_h; auto; now apply h_trig'|]. auto.
Qed.
Lemma to_csc_tan_h f i : P' i -> match to_csc_tan fk f with Some g => hall (g i) | None => True end.
Proof. intros H. destruct f; cbn [to_csc_tan]; auto; her. Qed.
Lemma to_sec_cot_h f i : P' i -> match to_sec_cot fk f with Some g => hall (g i) | None => True end.
Proof. intros H. destruct f; cbn [to_sec_cot]; auto; her. Qed.
Lemma filterM_h {A} {HA : Holds P A} (f : A -> res bool) l : Forall (holds (P:=P)) l -> hall (filterM f l).
Proof.
  induction 1 as [|a l Ha _ IH]; cbn [filterM]; [constructor|]. apply hall_bind0. intros b.
  apply (hall_bind P (HA:=holds_list P A)); [exact IH|]. intros r Hr. destruct b; [constructor; auto|exact Hr].
Qed.
Lemma rewrite_trig_h e : P' e -> hall (rewrite_trig fk e).
Proof.
  intros He. unfold rewrite_trig. destruct (negb _); [exact I|].
  apply (hall_bind P (HA:=holds_expr P)); [apply replace_class_h; auto; intros; now apply to_sin_cos_h|]. intros r1 H1.
  apply (hall_bind P (HA:=holds_expr P)); [apply replace_class_h; auto; intros; now apply to_csc_tan_h|]. intros r2 H2.
  apply (hall_bind P (HA:=holds_expr P)); [apply replace_class_h; auto; intros; now apply to_sec_cot_h|]. intros r3 H3.
  apply (hall_bind P (HA:=holds_list P expr)); [apply filterM_h; repeat constructor; auto|]. intros l Hl. exact Hl.
Qed.
Lemma inv_usub_h v y e : P' (ESym v) -> P' (ESym y) -> P' e -> hall (inv_usub fk rng v y e).
Proof.
  intros Hv Hy He. unfold inv_usub. apply hall_bind0. intros [f|]; [|exact I].
  apply (hall_bind P (HA:=holds_expr P)); [destruct f; her|]. intros d Hd.
  apply (hall_bind P (HA:=holds_expr P)); [her|]. intros x Hx.
  apply (hall_bind P (HA:=holds_expr P)); [her|]. intros g0 Hg0. apply (hall_bind P (HA:=holds_expr P)); [her|]. intros g Hg.
  apply (hall_bind P (HA:=holds_expr P)); [her|]. intros u Hu.
  apply (hall_bind P (HA:=holds_prod P expr expr)); [now apply usub_h|]. auto.
Qed.
Lemma simplify_step_h e : P' e -> hall (simplify_step fk e).
Proof.
  intros He. unfold simplify_step. apply (hall_bind P (HA:=holds_prod P expr bool)); [apply kinder_h; auto; intros; now apply pythagorean_h|].
  intros [a hit] [Ha _]. destruct hit; [exact Ha|exact I].
Qed.
Lemma generic_go_h v l : P' (ESym v) -> forall pre, Forall P' pre -> Forall P' l -> hall (generic_go fk v pre l).
Proof.
  intros Hv. induction l as [|t r IH]; intros pre Hp Hl; cbn [generic_go]; [exact I|]. hsat.
  assert (G : hall (generic_go fk v (pre ++ [t]) r)) by (apply IH; auto; apply app_holds; auto).
  apply (hall_bind P (HA:=holds_option P expr)); [now apply table_h|]. intros [F|] HFF; [|exact G].
  apply (hall_bind P (HA:=holds_prod P expr _)); [now apply rcf_h|]. intros [u z] [Hu _]. cbn [fst snd] in *.
  apply (hall_bind P (HA:=holds_expr P)); [her|]. intros rest Hr. cbv zeta. destruct (Nat.eqb _ _); [exact I|].
  destruct (Nat.eqb _ _); [exact Hu|exact G].
Qed.
Lemma generic_usub_h n v y e : P' (ESym v) -> P' (ESym y) -> P' e -> hall (generic_usub fk rng n v y e).
Proof.
  intros Hv Hy He. unfold generic_usub. destruct e; try exact I. pose proof He as He'. hsat.
  apply (hall_bind P (HA:=holds_option P expr)); [now apply generic_go_h|]. intros [u|] Hu; [|exact I]. hn.
  apply (hall_bind P (HA:=holds_expr P)); [her|]. intros du Hdu.
  apply (hall_bind P (HA:=holds_expr P)); [her|]. intros q Hq. apply (hall_bind P (HA:=holds_expr P)); [her|]. intros g Hg.
  apply (hall_bind P (HA:=holds_prod P expr expr)); [now apply usub_h|]. auto.
Qed.
Lemma cts_perform_h n v e : P' (ESym v) -> P' e -> hall (cts_perform fk n v e).
Proof.
  intros Hv He. unfold cts_perform. apply (hall_bind P (HA:=holds_list P expr)); [now apply to_const_polynomial_h|]. intros p Hp.
  destruct p as [|c0 [|c1 [|c2 [|]]]]; try exact I. hn. hsat. her.
Qed.
Lemma complete_square_h n v e : P' (ESym v) -> P' e -> hall (complete_square fk n v e).
Proof.
  intros Hv He. unfold complete_square. apply hall_bind0. intros [|]; [|exact I].
  apply (hall_bind P (HA:=holds_expr P)); [apply replace_factory_h; auto; intros; now apply cts_perform_h|]. intros r Hr. exact Hr.
Qed.
Lemma pyth_perform_h e : P' e -> hall (pyth_perform fk e).
Proof. intros He. unfold pyth_perform. destruct e; try exact I. destruct e1; try exact I. hsat. destruct f; her. Qed.
Lemma pyth_rewrite_h e : P' e -> hall (pyth_rewrite fk e).
Proof.
  induction e as [q| | | |s|s|k|ts IH|ts IH|b x IHb IHx|i b IHi IHb|f i IHi|i IHi] using expr_ind';
    intros He; cbn [pyth_rewrite]; (destruct (pyth_cond _); [apply (hall_bind P (HA:=holds_expr P)); [now apply pyth_perform_h|];
      intros r Hr; split; [exact Hr|exact I]|]); try (split; [exact He|exact I]). hsat. clear He.
  eapply (hall_bind P (HA:=holds_prod P (list expr) bool)).
  - induction IH as [|t l Ht _ IHl]; [split; [constructor|exact I]|]. hsat.
    apply (hall_bind P (HA:=holds_prod P expr bool)); [auto|]. intros [t' h] [Ht' _].
    apply (hall_bind P (HA:=holds_prod P (list expr) bool)); [auto|]. intros [r' h'] [Hr' _]. split; [constructor; auto|exact I].
  - intros [ts' h] [Hts _]. apply (hall_bind P (HA:=holds_expr P)); [now apply kh_prod'|]. intros p Hp. split; [exact Hp|exact I].
Qed.
Lemma rewrite_pyth_h e : P' e -> hall (rewrite_pyth fk e).
Proof.
  intros He. unfold rewrite_pyth. apply (hall_bind P (HA:=holds_prod P expr bool)); [now apply pyth_rewrite_h|].
  intros [a hit] [Ha _]. destruct hit; [exact Ha|exact I].
Qed.
End Trans.

Lemma hok {P A} {HA : Holds P A} (r : res A) a : r = Ok a -> hall P r -> holds (P:=P) a.
Proof. intros -> H. exact H. Qed.
Lemma guard_id {A} b (r : res A) a : guard b r = Ok a -> r = Ok a.
Proof. unfold guard. destruct b; auto; discriminate. Qed.

(** ** Substitutions: the substituted expression [u] does not use the new variable *)
Section Two.
Context (P P2 : expr -> Prop) (HP : HerF P) (HP2 : HerF P2) (fk : fkern) (HF : FHer P fk) (HF2 : FHer P2 fk).
Context (rng : string -> expr -> bool) (HS : forall e, hx P e -> hx P2 e).
Context (v y : string) (e u g : expr) (Hv : hx P (ESym v)) (Hy : hx P2 (ESym y)) (He : hx P e).
Let HK := fh_kern _ _ HF.
Let HK2 := fh_kern _ _ HF2.
Notation OEP := (holds_prod P bool (option expr * option expr)).

Lemma usub_2 a b : usub fk rng v y e a b = Ok (u, g) -> hx P a -> hx P2 b -> hx P u /\ hx P2 g.
Proof. intros H Ha Hb. apply guard_id in H. injection H as <- <-. auto. Qed.
Lemma opt_pair (a : expr * expr) : (Ok (Some a) : res (option (expr * expr))) = Ok (Some (u, g)) -> a = (u, g).
Proof. congruence. Qed.
Ltac run2 H := let x := fresh "x" in let Hx := fresh "Hx" in apply bind_ok in H as (x & Hx & H).

Lemma linear_usub_2 n : linear_usub fk rng n v y e = Ok (Some (u, g)) -> hx P u /\ hx P2 g.
Proof.
  intros H. unfold linear_usub in H. destruct (Nat.ltb _ _); [discriminate|].
  apply bind_ok in H as ([b [ou ic]] & Hc & H).
  apply (hok (HA:=OEP)) in Hc; [|apply linear_check_h; auto; split; exact I]. destruct Hc as [_ [Hu Hic]]. cbn [fst snd] in *.
  destruct b; [|discriminate]. destruct ou as [w|]; [|discriminate]. hn.
  apply bind_ok in H as (du & Hdu & H). apply (hok (HA:=holds_expr P)) in Hdu; [|now apply diffE_h]. apply HS in Hdu.
  apply bind_ok in H as (g0 & Hg0 & H). apply (hok (HA:=holds_expr P2)) in Hg0.
  - hn. apply bind_ok in H as (g1 & Hg1 & H). apply (hok (HA:=holds_expr P2)) in Hg1; [|her]. apply bind_ok in H as ([a b] & Hr & H).
    apply opt_pair in H. injection H as -> ->. eapply usub_2; eauto.
  - apply HS in Hu as Hu2. apply HS in He as He2. apply HS in Hv as Hv2. destruct ic as [c|]; [|her]. apply HS in Hic.
    apply hall_guard. apply (hall_bind P2 (HA:=holds_expr P2)); [her|]. intros nw Hnw.
    apply (hall_bind P2 (HA:=holds_expr P2)); [her|]. intros u' Hu'. apply hall_guard. hn. her.
Qed.
Lemma poly_usub_2 n : poly_usub fk rng n v y e = Ok (Some (u, g)) -> hx P u /\ hx P2 g.
Proof.
  intros H. unfold poly_usub in H. destruct e eqn:Ee; try discriminate. rewrite <- Ee in *.
  assert (Hl : Forall (hx P) ts) by (rewrite Ee in He; exact (i_prod P HP _ He)).
  apply bind_ok in H as (o & Ho & H). apply (hok (HA:=holds_option P (expr * expr))) in Ho; [|now apply poly_u_go_h].
  destruct o as [[x rest]|]; [|discriminate]. destruct Ho as [Hx Hr]. cbn [fst snd] in *. hn. destruct (isq x 0); [discriminate|].
  apply bind_ok in H as (w & Hw & H). apply (hok (HA:=holds_expr P)) in Hw; [|her]. cbv zeta in H. destruct (_ && _); [|discriminate].
  apply bind_ok in H as (du & Hdu & H). apply (hok (HA:=holds_expr P)) in Hdu; [|now apply diffE_h]. apply HS in Hdu.
  apply HS in He as He2. hn.
  apply bind_ok in H as (g0 & Hg0 & H). apply (hok (HA:=holds_expr P2)) in Hg0; [|her].
  apply bind_ok in H as (g1 & Hg1 & H). apply (hok (HA:=holds_expr P2)) in Hg1; [|her].
  apply bind_ok in H as ([a b] & Hr' & H). apply opt_pair in H. injection H as -> ->. eapply usub_2; eauto.
Qed.
Lemma trig_usub_2 : trig_usub fk rng v y e = Ok (Some (u, g)) -> hx P u /\ hx P2 g.
Proof.
  intros H. unfold trig_usub in H. destruct (trig_key v e) as [f|]; [|discriminate]. cbv zeta in H. apply HS in He as He2.
  apply bind_ok in H as (g0 & Hg0 & H). apply (hok (HA:=holds_expr P2)) in Hg0; [|her].
  apply bind_ok in H as (d & Hd & H). apply (hok (HA:=holds_expr P2)) in Hd; [|now apply trig_dy_h].
  apply bind_ok in H as (g1 & Hg1 & H). hn. apply (hok (HA:=holds_expr P2)) in Hg1; [|her].
  apply guard_id in H. apply bind_ok in H as ([a b] & Hr' & H). apply opt_pair in H. injection H as -> ->. eapply usub_2; eauto.
  now apply h_trig'.
Qed.
Lemma inv_usub_2 : inv_usub fk rng v y e = Ok (Some (u, g)) -> hx P u /\ hx P2 g.
Proof.
  intros H. unfold inv_usub in H. apply bind_ok in H as (o & Ho & H). destruct o as [f|]; [|discriminate]. apply HS in He as He2.
  apply bind_ok in H as (d & Hd & H). apply (hok (HA:=holds_expr P2)) in Hd; [|destruct f; her].
  apply bind_ok in H as (x & Hx & H). apply (hok (HA:=holds_expr P2)) in Hx; [|her]. hn.
  apply bind_ok in H as (g0 & Hg0 & H). apply (hok (HA:=holds_expr P2)) in Hg0; [|her]. hn.
  apply bind_ok in H as (g1 & Hg1 & H). apply (hok (HA:=holds_expr P2)) in Hg1; [|her].
  apply bind_ok in H as (w & Hw & H). apply (hok (HA:=holds_expr P)) in Hw; [|her].
  apply bind_ok in H as ([a b] & Hr' & H). apply opt_pair in H. injection H as -> ->. eapply usub_2; eauto.
Qed.
Lemma generic_usub_2 n : generic_usub fk rng n v y e = Ok (Some (u, g)) -> hx P u /\ hx P2 g.
Proof.
  intros H. unfold generic_usub in H. destruct e eqn:Ee; try discriminate. rewrite <- Ee in *.
  assert (Hl : Forall (hx P) ts) by (rewrite Ee in He; exact (i_prod P HP _ He)).
  apply bind_ok in H as (o & Ho & H). apply (hok (HA:=holds_option P expr)) in Ho; [|now apply generic_go_h].
  destruct o as [w|]; [|discriminate]. hn.
  apply bind_ok in H as (du & Hdu & H). apply (hok (HA:=holds_expr P)) in Hdu; [|now apply diffE_h].
  apply bind_ok in H as (q & Hq & H). hn. apply (hok (HA:=holds_expr P)) in Hq; [|her]. apply HS in Hq.
  apply bind_ok in H as (g0 & Hg0 & H). apply (hok (HA:=holds_expr P2)) in Hg0; [|her].
  apply bind_ok in H as ([a b] & Hr' & H). apply opt_pair in H. injection H as -> ->. eapply usub_2; eauto.
Qed.
End Two.
