(** * HerSimp: hereditary properties through simplify.py, product_to_sum and the matcher. *)
From Coquelicot Require Import Coquelicot.
From Verif Require Export HerLib Pts Match.

Section S.
Context (P : expr -> Prop) (HP : HerF P) (fk : fkern) (HF : FHer P fk).
Notation hall := (hall P).
Notation P' := (hx P).
Lemma logE_h e : P' e -> hall (logE fk e).
Proof. unfold logE. her. Qed.
Lemma expand_if_h n e : P' e -> hall (expand_if fk n e).
Proof. intros. unfold expand_if. her. Qed.
Hint Resolve logE_h expand_if_h : her.
Lemma sum_logs_h ts : Forall P' ts -> hall (sum_logs fk ts).
Proof. intros. unfold sum_logs. her. Qed.
Lemma sum_logs_abs_h ts : Forall P' ts -> hall (sum_logs_abs fk ts).
Proof. intros. unfold sum_logs_abs. her. Qed.
Hint Resolve sum_logs_h sum_logs_abs_h : her.
Lemma pnew_h e : P' e -> holds_pres P (PNew e).
Proof. auto. Qed.
Lemma log_perform_h e : P' e -> hall (log_perform fk e).
Proof.
  intros H. destruct e; try exact I. cbn [log_perform]. apply hall_guard. hsat.
  apply (hall_bind P (HA:=holds_expr P)); [|auto]. destruct e1; her.
Qed.
Lemma expand_logs_h n e : P' e -> hall (expand_logs fk n e).
Proof.
  intros H. unfold expand_logs. apply (hall_bind P (HA:=holds_prod P expr bool)).
  - apply kinder_h; auto. intros; now apply log_perform_h.
  - intros [a b] [Ha _]. now apply expand_if_h.
Qed.
Lemma term_numden_h icd t : P' t -> hall (term_numden fk icd t).
Proof.
  intros H. unfold term_numden. destruct t; her.
Qed.
Lemma add_common_h fs : forall acc, Forall P' acc -> Forall P' fs -> hall (add_common fk acc fs).
Proof.
  induction fs as [|f r IH]; intros acc Ha Hf; cbn [add_common]; [exact Ha|]. hsat. apply hall_bind0. intros b.
  apply IH; auto. destruct b; her.
Qed.
Lemma den_factors_h d : P' d -> Forall P' (den_factors d).
Proof. intros H. destruct d; cbn; auto. hsat; auto. Qed.
Lemma one_fraction_h icd e : P' e -> hall (one_fraction fk icd e).
Proof.
  intros H. destruct e; try exact H. cbn [one_fraction]. hsat.
  apply (hall_bind P (HA:=holds_list P (expr * expr * bool))).
  { apply (hall_mapM P (HA:=holds_expr P)); auto. intros; now apply term_numden_h. }
  intros l Hl. apply (hall_bind P (HA:=holds_list P expr)).
  { apply (hall_foldM P (HA:=holds_prod P (expr*expr) bool) (HB:=holds_list P expr)); auto; [constructor|].
    intros acc t Ha Ht. apply add_common_h; auto. apply den_factors_h. apply Ht. }
  intros cd Hcd. destruct (existsb _ _); [|exact I]. apply (hall_bind P (HA:=holds_expr P)); [hn; her|]. intros c Hc.
  apply (hall_bind P (HA:=holds_list P expr)).
  { apply (hall_mapM P (HA:=holds_prod P (expr*expr) bool)); auto. intros [[n d] b] [[? ?] _]. hn. her. }
  intros ns Hns. hn. her.
Qed.
Lemma reciprocate1_h e : P' e -> hall (reciprocate1 fk e).
Proof.
  intros H. unfold reciprocate1. destruct e as [| | | | | | | | |b x| | |]; try exact I. hsat. destruct b; try exact I. destruct x; try exact I.
  destruct (qlt0 q); try exact I. destruct (reciprocal_class f); try exact I. hsat.
  apply (hall_bind P (HA:=holds_expr P)); [her|]. intros b1 Hb. apply (hall_bind P (HA:=holds_expr P)); [her|]. intros x1 Hx. hn.
  apply (hall_bind P (HA:=holds_expr P)); [her|]. intros r Hr. exact Hr.
Qed.
Lemma reciprocate_trigs_h e : P' e -> hall (reciprocate_trigs fk e).
Proof.
  intros H. unfold reciprocate_trigs. apply (hall_bind P (HA:=holds_prod P expr bool)); [|intros [a b] [Ha _]; exact Ha].
  apply kinder_many_h; auto. constructor; auto. intros; now apply reciprocate1_h.
Qed.
Lemma sec_to_tan_h e : P' e -> hall (sec_to_tan fk e).
Proof. intros H. unfold sec_to_tan. her. Qed.
Lemma Forall_filter2 {A} (Q : A -> Prop) f l : Forall Q l -> Forall Q (filter f l).
Proof. apply Forall_filter'. Qed.
Lemma concat_h {A} (Q : A -> Prop) ls : Forall (Forall Q) ls -> Forall Q (List.concat ls).
Proof. induction 1; cbn; auto. now apply Forall_app. Qed.
Lemma sectan_h n e : P' e -> hall (sectan fk n e).
Proof.
  intros H. unfold sectan. destruct e; try exact I. cbv zeta. hsat.
  pose proof (Forall_filter' P' (is_class_squared Sec) ts H0) as Hs.
  pose proof (Forall_filter' P' (fun t => negb (is_class_squared Sec t) && is_class_squared Tan t) ts H0) as Ht.
  pose proof (Forall_filter' P' (fun t => negb (is_class_squared Sec t) && negb (is_class_squared Tan t)) ts H0) as Ho.
  destruct (filter (is_class_squared Sec) ts) as [|s0 ss]; [exact I|].
  destruct (filter (fun t => negb (is_class_squared Sec t) && is_class_squared Tan t) ts) as [|t0 tt]; [exact I|].
  apply (hall_bind P (HA:=holds_list P (list expr))).
  { apply (hall_mapM P (HA:=holds_expr P)); auto. intros s Hs1. apply (hall_bind P (HA:=holds_expr P)).
    - apply replace_factory_h; auto. intros; now apply sec_to_tan_h.
    - intros w Hw. hn. her. }
  intros news Hn. apply (hall_bind P (HA:=holds_expr P)); [|intros r Hr; destruct r; try exact I; exact Hr].
  hn. apply kh_sum'; auto using concat_h, app_holds, fh_kern.
Qed.
End S.
#[export] Hint Resolve logE_h expand_if_h sum_logs_h sum_logs_abs_h log_perform_h expand_logs_h one_fraction_h
  reciprocate_trigs_h sectan_h : her.

(** ** product_to_sum *)
Section Pts.
Context (P : expr -> Prop) (HP : HerF P) (fk : fkern) (HF : FHer P fk).
Notation hall := (hall P).
Notation P' := (hx P).
Lemma perform_on_terms_h a b m : P' a -> P' b -> P' m -> hall (perform_on_terms fk a b m).
Proof.
  intros Ha Hb Hm. unfold perform_on_terms. apply (hall_bind P (HA:=holds_expr P)); [her|]. intros c Hc. hn.
  destruct a; try exact I. hsat. destruct f; try exact I; destruct b; try exact I; hsat; destruct f; try exact I; her.
Qed.
Lemma list_of_h u l m : (forall e, P' e -> hall (u e)) -> holds (P:=P) l -> holds (P:=P) m -> hall (list_of fk u l m).
Proof.
  intros Hu Hl Hm. unfold list_of. destruct l as [l|]; [|exact I].
  apply (hall_bind P (HA:=holds_list P (option (list expr)))); [apply (hall_mapM P (HA:=holds_expr P)); auto|].
  intros rs Hrs. destruct (forallb _ rs); [exact I|]. cbv zeta.
  assert (HFl : Forall P' (flat_map (fun p : option (list expr) * expr => match fst p with
                                        | Some (x :: r) => x :: r
                                        | _ => [snd p] end) (combine rs l))).
  { hn. clear -Hrs Hl. revert l Hl. induction Hrs as [|o rs Ho _ IH]; intros [|t l] Hl; cbn; [constructor..|].
    inversion Hl; subst. apply Forall_app; split; [|auto]. destruct o as [[|x r]|]; cbn; auto. }
  destruct m as [m|]; [|exact HFl]. hn. destruct (isq m 1); [exact HFl|].
  apply (hall_bind P (HA:=holds_list P expr)); [|intros; auto]. apply (hall_mapM P (HA:=holds_expr P)); auto. hn. her.
Qed.
Lemma unit_of_h u e : hall (u e) -> hall (unit_of fk u e).
Proof. intros Hu. unfold unit_of. her. Qed.
Lemma rcf_h e : P' e -> hall (rcf e).
Proof.
  intros H. unfold rcf. pose proof (Forall_filter' P'). destruct e; her.
Qed.
Lemma pts_unit_h n : forall mult e, holds (P:=P) mult -> P' e -> hall (pts_unit fk n mult e).
Proof.
  induction n as [|n IH]; intros mult e Hm He; cbn [pts_unit]; [exact I|]. cbv zeta.
  assert (HU : forall t, P' t -> hall (unit_of fk (pts_unit fk n None) t)) by (intros; apply unit_of_h; now apply IH).
  assert (HL : forall l m, holds (P:=P) l -> P' m -> hall (list_of fk (pts_unit fk n None) l (Some m))).
  { intros l m Hl Hm'. apply list_of_h; auto. intros. now apply IH. }
  assert (HX : forall t, P' t -> hall (expandE fk n t)) by (intros; now apply expandE_h).
  assert (HM : forall t u, P' t -> P' u -> hall (pts_unit fk n (Some t) u)) by (intros; now apply IH).
  pose proof perform_on_terms_h as HT.
  apply (hall_bind P (HA:=holds_prod P expr expr)); [now apply rcf_h|]. intros [ne c0] [Hn Hc0]. hn.
  apply (hall_bind P (HA:=holds_expr P)); [destruct mult; her|]. intros c Hc. hn.
  destruct ne as [| | | | | | | |ts|b x| | |]; try exact I; hsat.
  - assert (HG : hall (if negb (forallb (fun t => is_sc t || valid_power t) ts) then Ok None
          else if existsb (fun t => negb (is_sc t)) ts then
            guard (negb (k_strict fk) || forallb (fun t => negb (is_sc t)) ts)
            (us <- mapM (unit_of fk (pts_unit fk n None)) (filter (fun t => negb (is_sc t)) ts);;
             vs <- mapM (fun o => match o with Some v => Ok v | None => Stop Unmodelled end) us;;
             p <- k_prod fk vs;; x <- expandE fk n p;;
             match x with
             | ESum ws | EProd ws => guard (negb (k_strict fk) || is_sum x) (list_of fk (pts_unit fk n None) (Some ws) (Some c))
             | _ => Raise AttributeError end)
          else
            match ts with
            | t1 :: t2 :: rest => r <- prod_skip rest;; m <- op_mul fk r c;; perform_on_terms fk t1 t2 m
            | _ => Raise IndexError
            end)).
    { destruct (negb _); [exact I|]. destruct (existsb _ ts).
      - apply hall_guard. apply (hall_bind P (HA:=holds_list P (option expr))).
        { apply (hall_mapM P (HA:=holds_expr P)); auto. now apply Forall_filter'. }
        intros us Hus. apply (hall_bind P (HA:=holds_list P expr)).
        { apply (hall_mapM P (HA:=holds_option P expr)); auto. intros [o|] Ho; [exact Ho|exact I]. }
        intros vs Hvs. hn. apply (hall_bind P (HA:=holds_expr P)); [her|]. intros p Hp.
        apply (hall_bind P (HA:=holds_expr P)); [apply HX; her|]. intros x Hx. hn.
        destruct x; try exact I; hsat; apply hall_guard; apply HL; auto.
      - destruct ts as [|t1 [|t2 rest]]; try exact I. hsat. her. }
    destruct ts as [|t1 [|t2 [|t3 r]]]; try exact HG. hsat.
    destruct (is_sc t1 && is_sc t2); [now apply HT|]. destruct (is_sc t1 && valid_power t2).
    { apply (hall_bind P (HA:=holds_option P (list expr))); auto. }
    destruct (is_sc t2 && valid_power t1).
    { apply (hall_bind P (HA:=holds_option P (list expr))); auto. }
    destruct (valid_power t2 && valid_power t1); [|exact I].
    apply (hall_bind P (HA:=holds_option P expr)); [auto|]. intros a Ha.
    apply (hall_bind P (HA:=holds_option P expr)); [auto|]. intros b Hb. hn.
    destruct a as [a|]; [|exact I]. destruct b as [b|]; [|exact I].
    apply (hall_bind P (HA:=holds_expr P)); [her|]. intros p Hp.
    apply (hall_bind P (HA:=holds_expr P)); [apply HX; her|]. intros x Hx. hn.
    destruct x; try exact I; hsat; apply hall_guard; apply HL; auto.
  - destruct x; try exact I. destruct (valid_power _) eqn:E; [|exact I].
    cbn [valid_power] in E. apply andb_true_iff in E as [E _]. apply andb_true_iff in E as [E _].
    assert (HB : is_pow b = false) by (destruct b; auto; discriminate).
    destruct (Qeq_bool q 2); [now apply HT|].
    apply (hall_bind P (HA:=holds_option P (list expr))); [|intros; apply HL; auto].
    destruct (Qeq_bool q 3); [now apply HT|].
    apply (hall_bind P (HA:=holds_expr P)); [her|]. intros x Hx. apply HT; auto. now apply h_mkpow'.
Qed.
Lemma product_to_sum_unit_h n e : P' e -> hall (product_to_sum_unit fk n e).
Proof. intros. apply unit_of_h. apply pts_unit_h; auto. exact I. Qed.
Lemma product_to_sum_h n e : P' e -> hall (product_to_sum fk n e).
Proof.
  intros H. unfold product_to_sum. destruct e; try exact I. hsat.
  apply (hall_bind P (HA:=holds_option P (list expr))).
  { apply list_of_h; auto; [|exact I]. intros. apply pts_unit_h; auto. exact I. }
  intros [l|] Hl; [|exact I]. hn. apply (hall_bind P (HA:=holds_expr P)); [her|]. intros f Hf. hn.
  destruct f; try exact Hf. do 2 (match goal with |- hall (if ?b then _ else _) => destruct b end; [exact Hf|]). exact I.
Qed.
End Pts.
#[export] Hint Resolve product_to_sum_unit_h product_to_sum_h rcf_h : her.
