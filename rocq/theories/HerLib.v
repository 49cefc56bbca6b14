(** * HerLib: hereditary properties (Her.v) through the rest of the library. *)
From Coquelicot Require Import Coquelicot.
From Verif Require Export Her Factor Regex.

Section Lib.
Context (P : expr -> Prop) (HP : HerF P) (fk : fkern) (HF : FHer P fk).
Notation hall := (hall P).
Notation P' := (hx P).

(** ** expand *)
Lemma numdenF_h ts : Forall P' ts -> hall (numdenF fk ts).
Proof.
  intros H. unfold numdenF. apply (hall_bind P).
  - apply numden_go_h; auto. apply (fh_kern _ _ HF).
  - intros [a b] Hab. her. 
Qed.
Hint Resolve numdenF_h : her.
Lemma inv_factor_h t : P' t -> hall (inv_factor fk t).
Proof. intros. unfold inv_factor. her. Qed.
Hint Resolve inv_factor_h : her.
Lemma combine_h {B} ts (p : list B) : Forall P' ts -> Forall (fun q => P' (fst q)) (combine ts p).
Proof. intros H. revert p. induction H; intros [|z p]; cbn; constructor; auto. Qed.
Lemma multi_term_h ts n p : Forall P' ts -> hall (multi_term fk ts n p).
Proof.
  intros H. unfold multi_term. apply (hall_bind P (A:=list expr)).
  - apply (hall_mapM P (HA:=fun tp : expr * Z => P' (fst tp))); [now apply combine_h|]. intros [a b] Ha. hn. her.
  - intros ps Hps. apply hall_bind0. intros [m|?]; her.
Qed.
Lemma split_sums_h l : Forall P' l -> Forall (Forall P') (fst (split_sums l)) /\ Forall P' (snd (split_sums l)).
Proof.
  induction 1 as [|t l Ht _ IH]; cbn [split_sums]; [split; constructor|].
  destruct t; destruct (split_sums l); cbn [fst snd] in *; destruct IH; hsat; split; auto.
Qed.
Lemma cart_h ls : Forall (Forall P') ls -> Forall (Forall P') (cart ls).
Proof.
  induction 1 as [|l r Hl _ IH]; cbn [cart]; [repeat constructor|]. induction Hl as [|x l Hx _ IHl]; cbn; [constructor|].
  apply Forall_app; split; auto. rewrite Forall_map. eapply Forall_impl; [|exact IH]. cbn. auto.
Qed.
Lemma expandE_h n : forall e, P' e -> hall (expandE fk n e).
Proof.
  pose proof multi_term_h as HM.
  induction n as [|n IH]; intros e H; cbn [expandE]; [exact I|].
  assert (E1 : forall t, P' t -> hall (b <- expandable fk t;; if b : bool then expandE fk n t else Ok t)).
  { intros t Ht. her. }
  destruct e as [q| | | | |s| |ts|ts|b x|i b|f i|i]; cbv beta zeta; try solve [her].
  - apply hall_bind0. intros [|]; [|exact I]. apply (hall_bind P); [now apply numdenF_h; hsat|]. intros [nu de] [Hn Hd].
    cbn [fst snd] in *. hn. apply (hall_bind P (HA:=holds_expr P)); [auto|]. intros den' Hd'. apply (hall_bind P (A:=list expr)); [her|].
    intros dts Hdts. hn. destruct nu; try solve [apply (hall_bind P (HA:=holds_expr P)); [auto|]; intros num' Hn'; her].
    apply (hall_bind P (A:=list expr)); [apply (hall_mapM P (HA:=holds_expr P)); hsat; auto|]. intros ns' Hns. hn.
    pose proof (split_sums_h ns' Hns) as [S1 S2]. destruct (split_sums ns') as [sums other]; cbn [fst snd] in *.
    destruct sums as [|s0 sums]; [her|]. apply (hall_bind P (A:=list expr)); [|her].
    apply (hall_mapM P (HA:=holds_list P expr)); [now apply cart_h|]. intros us Hus. hn. her.
  - apply hall_bind0. intros [|]; [|exact I]. her.
    + apply (hall_mapM P (HA:=fun _ => True)); [apply Forall_forall; intros; exact I|].
      intros p _. apply multi_term_h; hsat; auto.
    + destruct (qlt0 q); her.
Qed.

(** ** factor *)
#[export] Instance holds_fac : Holds P fac := fun f => P' (fst (fst f)).
Lemma df_factors_h e : P' e -> hall (df_factors e).
Proof.
  assert (L : forall (e : expr) (q : Q) (b : bool), P' e -> Forall (holds (P:=P)) [((e, q, b) : fac)])
    by (intros; repeat constructor; auto).
  induction e as [q| | | | | | |ts IH|ts IH|b x IHb IHx|i b IHi IHb|f i IHi|i IHi] using expr_ind';
    intros H; try (apply L; assumption).
  - cbn [df_factors]. hsat. clear H. induction IH as [|t l Ht Hl IHl]; [constructor|]. hsat. destruct (is_acc t); [auto|].
    apply (hall_bind P (HA:=holds_list P fac)); [auto|]. intros [|f fs] Hf; [exact I|].
    apply (hall_bind P (HA:=holds_list P fac)); [auto|]. intros fs' Hfs. inversion Hf; subst. constructor; auto.
  - cbn [df_factors]. hsat. destruct x; apply L; auto.
Qed.
Lemma Forall_filter' {A} (Q : A -> Prop) f l : Forall Q l -> Forall Q (filter f l).
Proof. induction 1; cbn; auto. destruct (f x); auto. Qed.
Lemma decon_prod_h e : P' e -> Forall P' (fst (decon_prod e)) /\ Forall P' (snd (decon_prod e)).
Proof.
  intros H. destruct e; cbn [decon_prod fst snd]; try (split; auto with her; fail).
  hsat. split; [|now apply Forall_filter'].
  destruct (filter is_acc ts) eqn:E; [auto with her|]. rewrite <- E. now apply Forall_filter'.
Qed.
Lemma df_coeff_h e : P' e -> hall (df_coeff e).
Proof.
  intros H. unfold df_coeff. destruct e; try (apply hall_ok; hn; auto with her; fail).
  all: try apply prod_skip_h; try apply decon_prod_h; auto.
Qed.
Lemma common_step_h cs l : Forall (holds (P:=P)) cs -> hall (common_step fk cs l).
Proof.
  induction 1 as [|c r Hc _ IH]; cbn [common_step]; [constructor|]. apply hall_bind0. intros o.
  apply (hall_bind P (HA:=holds_list P fac)); auto. intros r' Hr. destruct o; [constructor|]; auto.
Qed.
Lemma common_coeff_h l : forall cc, Forall P' l -> P' cc -> hall (common_coeff fk cc l).
Proof.
  induction l as [|c r IH]; intros cc Hl Hc; cbn [common_coeff]; [exact Hc|]. hsat.
  do 4 (apply hall_bind0; intros ?). match goal with |- hall (if ?b then _ else _) => destruct b end; [|exact I].
  apply (hall_bind P (HA:=holds_expr P)); [her|]. intros x Hx. apply (hall_bind P (HA:=holds_expr P)); [her|]. intros y Hy.
  apply (hall_bind P (HA:=holds_expr P)); [|intros; apply IH; auto]. unfold min_num. her.
Qed.
Lemma makeprod_h fs : Forall (holds (P:=P)) fs -> hall (makeprod fk fs).
Proof.
  intros H. unfold makeprod. destruct fs as [|f fs]; [her|]. apply (hall_bind P (A:=list expr)); [|her].
  apply (hall_mapM P (HA:=holds_fac)); auto. intros [[b q] s] Hb. cbn [fst snd]. unfold holds, holds_fac in Hb. cbn [fst snd] in Hb.
  destruct s; her.
Qed.
Lemma common_expr_h ts : Forall P' ts -> hall (common_expr fk ts).
Proof.
  intros H. unfold common_expr. apply (hall_bind P (A:=list expr)); [apply (hall_mapM P (HA:=holds_expr P)); auto; intros; now apply df_coeff_h|].
  intros cs Hc. apply (hall_bind P (HA:=holds_list P (list fac))); [apply (hall_mapM P (HA:=holds_expr P)); auto; intros; now apply df_factors_h|].
  intros fss Hf. destruct fss as [|f0 fs]; [exact I|]. destruct cs as [|c0 cs]; [exact I|].
  inversion Hf; subst. hn. hsat.
  apply (hall_bind P (HA:=holds_list P fac)).
  { apply (hall_foldM P (HA:=fun _ => True) (HB:=holds_list P fac)); auto; [apply Forall_forall; intros; exact I|]. intros; now apply common_step_h. }
  intros common Hcm. apply (hall_bind P (HA:=holds_expr P)); [her|]. intros a0 Ha.
  apply (hall_bind P (HA:=holds_option P expr)); [now apply common_coeff_h|]. intros cc Hcc. hn.
  apply hall_bind0. intros neg. apply (hall_bind P (HA:=holds_option P expr)); [destruct cc, neg; her|].
  intros cc' Hcc'. apply (hall_bind P (HA:=holds_expr P)); [now apply makeprod_h|]. intros ce Hce. hn. destruct cc'; her.
Qed.
Lemma factorE_h ts : Forall P' ts -> hall (factorE fk ts).
Proof.
  intros H. unfold factorE. apply (hall_bind P (HA:=holds_expr P)); [now apply common_expr_h|]. intros ce Hce. hn. her.
Qed.
End Lib.
#[export] Hint Resolve numdenF_h inv_factor_h multi_term_h expandE_h common_expr_h factorE_h : her.

(** ** The replacement functions of regex.py *)
#[export] Instance holds_pres P : Holds P pres := fun p => match p with PNew e => hx P e | _ => True end.

(** The result of a replacement satisfies [P] when the original satisfies [P0], the replacing
    expressions satisfy [P], and the symbols that are kept satisfy [P]. *)
Section Walk.
Context (P0 P : expr -> Prop) (HP0 : HerF P0) (HP : HerF P) (fk : fkern) (HF : FHer P fk).
Context (p : expr -> res (option (expr * bool))).
Context (Hp : forall t, hx P0 t -> hall P (p t)).
Context (Hs : forall s, hx P0 (ESym s) -> p (ESym s) = Ok None -> hx P (ESym s)).
Lemma walk_h2 e : hx P0 e -> hall P (walk fk p e).
Proof.
  assert (L : forall ts, Forall (fun e => hx P0 e -> hall P (walk fk p e)) ts -> Forall (hx P0) ts -> hall P
    ((fix go (l : list expr) : res (list expr * bool) :=
    match l with
    | [] => Ok ([], false)
    | t :: r => '(t', h) <- walk fk p t;; '(r', h') <- go r;; Ok (t' :: r', h || h')
    end) ts)).
  { induction 1 as [|t l Ht _ IHl]; intros H; [split; [constructor|exact I]|]. hsat.
    apply (hall_bind P (HA:=holds_prod P expr bool)); [auto|]. intros [t1 h1] [K1 _].
    apply (hall_bind P (HA:=holds_prod P (list expr) bool)); [auto|]. intros [l1 h2] [K2 _]. split; [constructor; auto|exact I]. }
  induction e as [q| | | |s|s| |ts IH|ts IH|b x IHb IHx|i b IHi IHb|f i IHi|i IHi] using expr_ind';
    intros H; cbn [walk]; pose proof (Hp _ H) as Hp1; (destruct (p _) as [[[o1 oh]|]| |] eqn:Ep; [exact Hp1| |exact I|exact I]);
    cbn [bind]; try solve [apply hall_ok; split; hn; auto with her].
  all: hsat.
  - apply (hall_bind P (HA:=holds_prod P (list expr) bool)); [now apply L|]. intros [t1 h1] [K1 _]. hn. her.
  - apply (hall_bind P (HA:=holds_prod P (list expr) bool)); [now apply L|]. intros [t1 h1] [K1 _]. hn. her.
  - apply (hall_bind P (HA:=holds_prod P expr bool)); [auto|]. intros [t1 h1] [K1 _].
    apply (hall_bind P (HA:=holds_prod P expr bool)); [auto|]. intros [t2 h2] [K2 _]. hn. her.
  - apply (hall_bind P (HA:=holds_prod P expr bool)); [auto|]. intros [t1 h1] [K1 _].
    apply (hall_bind P (HA:=holds_prod P expr bool)); [auto|]. intros [t2 h2] [K2 _]. hn. her.
  - apply (hall_bind P (HA:=holds_prod P expr bool)); [auto|]. intros [t1 h1] [K1 _]. hn. her.
  - apply (hall_bind P (HA:=holds_prod P expr bool)); [auto|]. intros [t1 h1] [K1 _]. hn. her.
Qed.
End Walk.

Lemma replaceE_h2 P0 P (HP0 : HerF P0) (HP : HerF P) fk (HF : FHer P fk) e old new :
  hx P0 e -> hx P new -> (forall s, hx P0 (ESym s) -> k_eq fk (ESym s) old = Ok false -> hx P (ESym s)) ->
  hall P (replaceE fk e old new).
Proof.
  intros He Hn Hs. unfold replaceE, replace_factory, replace_factory_list.
  apply (hall_bind P (HA:=holds_prod P expr bool)); [|intros [a b] [Ha _]; exact Ha].
  apply (walk_h2 P0 P); auto.
  - intros t Ht. cbn [first_cond]. apply hall_bind0. intros [|]; cbn; auto. split; [exact Hn|exact I].
  - intros s H1 H2. apply Hs; auto. cbn [first_cond bind] in H2. destruct (k_eq fk (ESym s) old) as [[|]| |]; cbn in H2; congruence.
Qed.

Section Regex.
Context (P : expr -> Prop) (HP : HerF P) (fk : fkern) (HF : FHer P fk).
Notation hall := (hall P).
Notation P' := (hx P).
Lemma walk_h p e : (forall t, P' t -> hall (p t)) -> P' e -> hall (walk fk p e).
Proof. intros Hp He. apply (walk_h2 P P); auto. Qed.
Lemma replaceE_h e old new : P' e -> P' new -> hall (replaceE fk e old new).
Proof. intros. apply (replaceE_h2 P P); auto. Qed.
Lemma first_cond_h cps e : Forall (fun cp => forall t, P' t -> hall (snd cp t)) cps -> P' e -> hall (first_cond cps e).
Proof.
  intros Hc He. induction Hc as [|[c p] r Hp _ IH]; cbn [first_cond]; [exact I|]. cbn [snd] in Hp.
  apply hall_bind0. intros [|]; auto. apply (hall_bind P (HA:=holds_expr P)); [auto|]. intros e' H. split; [exact H|exact I].
Qed.
Lemma replace_factory_list_h cps e : Forall (fun cp => forall t, P' t -> hall (snd cp t)) cps -> P' e ->
  hall (replace_factory_list fk cps e).
Proof.
  intros Hc He. unfold replace_factory_list. apply (hall_bind P (HA:=holds_prod P expr bool)); [|intros [a b] [Ha _]; exact Ha].
  apply walk_h; auto. intros. now apply first_cond_h.
Qed.
Lemma replace_factory_h c p e : (forall t, P' t -> hall (p t)) -> P' e -> hall (replace_factory fk c p e).
Proof. intros Hp He. apply replace_factory_list_h; auto. Qed.
Lemma first_perform_h ps e : Forall (fun p => forall t, P' t -> hall (p t)) ps -> P' e -> hall (first_perform ps e).
Proof.
  intros Hc He. induction Hc as [|p r Hp _ IH]; cbn [first_perform]; [exact I|].
  apply (hall_bind P (HA:=holds_pres P)); [auto|]. intros [| |e'] H; auto; (split; [auto|exact I]).
Qed.
Lemma kinder_many_h oc ps e : Forall (fun p => forall t, P' t -> hall (p t)) ps -> P' e -> hall (kinder_replace_many fk oc ps e).
Proof.
  intros Hc He. apply walk_h; auto. intros t Ht. destruct (oc t); [now apply first_perform_h|]. split; [exact Ht|exact I].
Qed.
Lemma kinder_h p e : (forall t, P' t -> hall (p t)) -> P' e -> hall (kinder_replace fk p e).
Proof. intros Hp He. apply kinder_many_h; auto. Qed.
Lemma replace_class_h nf e : (forall f i, P' i -> match nf f with Some g => hall (g i) | None => True end) -> P' e ->
  hall (replace_class fk nf e).
Proof.
  intros Hn.
  induction e as [q| | | |s|s| |ts IH|ts IH|b x IHb IHx|i b IHi IHb|f i IHi|i IHi] using expr_ind';
    intros H; cbn [replace_class]; (destruct (negb _); [exact H|]); try exact H; hsat.
  - apply (hall_bind P (HA:=holds_list P expr)); [|her]. clear H. induction IH as [|t l Ht _ IHl]; [constructor|]. hsat.
    apply (hall_bind P (HA:=holds_expr P)); [auto|]. intros t1 H1. apply (hall_bind P (HA:=holds_list P expr)); [auto|].
    intros l1 H2. constructor; auto.
  - apply (hall_bind P (HA:=holds_list P expr)); [|her]. clear H. induction IH as [|t l Ht _ IHl]; [constructor|]. hsat.
    apply (hall_bind P (HA:=holds_expr P)); [auto|]. intros t1 H1. apply (hall_bind P (HA:=holds_list P expr)); [auto|].
    intros l1 H2. constructor; auto.
  - her.
  - her.
  - apply (hall_bind P (HA:=holds_expr P)); [auto|]. intros i1 Hi. specialize (Hn f i1 Hi). destruct (nf f); auto. hn. her.
  - her.
Qed.
End Regex.
#[export] Hint Resolve replaceE_h : her.
