(** * Her: no operation of the library invents symbols (or builds powers of powers).

    Atoms.v shows it for the constructors +, *, ^ and abs; here for logarithms, trig functions,
    substitution, differentiation and everything built on them, on the plain and the monitored
    runs alike. *)
From Verif Require Export Atoms Calc.

Record HerF (P : expr -> Prop) : Prop := {
  hf_her :> Her P;
  h_pi : P EPi;
  h_e : P EE;
  h_mklog : forall i b, P i -> P b -> P (ELog i b);
  h_mktrig : forall f i, P i -> P (ETrig f i);
  h_any : forall k, P (EAny k) }.

(** [P e], with a name the proof search can index on *)
Definition hx (P : expr -> Prop) (e : expr) : Prop := P e.

(** The property [P] extended to the data the functions compute with. *)
Class Holds (P : expr -> Prop) (A : Type) := holds : A -> Prop.
#[export] Instance holds_expr P : Holds P expr := hx P.
#[export] Instance holds_list P A {H : Holds P A} : Holds P (list A) := Forall (holds (P:=P)).
#[export] Instance holds_option P A {H : Holds P A} : Holds P (option A) :=
  fun o => match o with Some a => holds (P:=P) a | None => True end.
#[export] Instance holds_prod P A B {H : Holds P A} {G : Holds P B} : Holds P (A * B) :=
  fun p => holds (P:=P) (fst p) /\ holds (P:=P) (snd p).
#[export] Instance holds_sum P A B {H : Holds P A} {G : Holds P B} : Holds P (A + B) :=
  fun p => match p with inl a => holds (P:=P) a | inr b => holds (P:=P) b end.
#[export] Instance holds_bool P : Holds P bool := fun _ => True.
#[export] Instance holds_nat P : Holds P nat := fun _ => True.
#[export] Instance holds_Z P : Holds P Z := fun _ => True.
#[export] Instance holds_Q P : Holds P Q := fun _ => True.
#[export] Instance holds_string P : Holds P string := fun _ => True.
#[export] Instance holds_trig P : Holds P trig := fun _ => True.
#[export] Instance holds_unit P : Holds P unit := fun _ => True.

(** a result, if there is one, has the property *)
Definition hall (P : expr -> Prop) {A} {H : Holds P A} (r : res A) : Prop :=
  match r with Ok a => holds (P:=P) a | _ => True end.

Lemma hall_rall P {A} {H : Holds P A} (r : res A) : hall P r <-> rall True (holds (P:=P)) r.
Proof. destruct r as [| |[]]; simpl; tauto. Qed.
Lemma hall_ok P {A} {H : Holds P A} (a : A) : holds (P:=P) a -> hall P (Ok a).
Proof. auto. Qed.
Lemma hall_bind P {A B} {HA : Holds P A} {HB : Holds P B} (r : res A) (f : A -> res B) :
  hall P r -> (forall a, holds (P:=P) a -> hall P (f a)) -> hall P (bind r f).
Proof. destruct r; simpl; auto. Qed.
(** when nothing is known about the intermediate result *)
Lemma hall_bind0 P {A B} {HB : Holds P B} (r : res A) (f : A -> res B) :
  (forall a, hall P (f a)) -> hall P (bind r f).
Proof. destruct r; simpl; auto. Qed.
Lemma hall_guard P {A} {H : Holds P A} b (r : res A) : hall P r -> hall P (guard b r).
Proof. destruct b; simpl; auto. Qed.
Lemma hall_mapM P {A B} {HA : Holds P A} {HB : Holds P B} (f : A -> res B) l :
  Forall (holds (P:=P)) l -> (forall a, holds (P:=P) a -> hall P (f a)) -> hall P (mapM f l).
Proof.
  intros H Hf. induction H as [|a l Ha _ IH]; cbn [mapM]; [constructor|].
  eapply hall_bind; [apply Hf; auto|]. intros b Hb. eapply hall_bind; [exact IH|].
  intros bs Hbs. now constructor.
Qed.
Lemma hall_foldM P {A B} {HA : Holds P A} {HB : Holds P B} (f : B -> A -> res B) l : forall b,
  Forall (holds (P:=P)) l -> holds (P:=P) b ->
  (forall b a, holds (P:=P) b -> holds (P:=P) a -> hall P (f b a)) -> hall P (foldM f l b).
Proof.
  induction l as [|a l IH]; intros b H Hb Hf; cbn [foldM]; auto. inversion H; subst.
  eapply hall_bind; [apply Hf; auto|]. intros b' Hb'. apply IH; auto.
Qed.

Record FHer (P : expr -> Prop) (fk : fkern) : Prop := {
  fh_kern : KHer True P fk;
  fh_raw : KHer True P (k_raw fk);
  fh_log : forall i b, hx P i -> hx P b -> hall P (k_log fk i b);
  fh_trig : forall f i, hx P i -> hall P (k_trig fk f i) }.

Create HintDb her.

Ltac hn := cbv beta iota delta [holds holds_expr holds_list holds_option holds_prod holds_sum holds_bool
  holds_nat holds_Z holds_Q holds_string holds_trig holds_unit fst snd] in *.

(** consequences of the hypotheses [P (..)] *)
Section Inv.
Context (P : expr -> Prop) (HP : HerF P).
Lemma i_sum l : hx P (ESum l) -> Forall (hx P) l. Proof. apply (h_sum P HP). Qed.
Lemma i_prod l : hx P (EProd l) -> Forall (hx P) l. Proof. apply (h_prod P HP). Qed.
Lemma i_pow b x : hx P (EPow b x) -> hx P b /\ hx P x. Proof. apply (h_pow P HP). Qed.
Lemma i_log b x : hx P (ELog b x) -> hx P b /\ hx P x. Proof. apply (h_log P HP). Qed.
Lemma i_trig f i : hx P (ETrig f i) -> hx P i. Proof. apply (h_trig P HP). Qed.
Lemma i_abs i : hx P (EAbs i) -> hx P i. Proof. apply (h_abs P HP). Qed.
Lemma h_ratq' q : hx P (rat q). Proof. apply (h_rat P HP). Qed.
Lemma h_ratz' z : hx P (ratz z). Proof. apply (h_rat P HP). Qed.
Lemma h_rat' z : hx P (ERat z). Proof. apply (h_rat P HP). Qed.
Lemma h_inf' : hx P EInf. Proof. apply (h_inf P HP). Qed.
Lemma h_ninf' : hx P ENegInf. Proof. apply (h_ninf P HP). Qed.
Lemma h_pi' : hx P EPi. Proof. apply (h_pi P HP). Qed.
Lemma h_e' : hx P EE. Proof. apply (h_e P HP). Qed.
Lemma h_any' k : hx P (EAny k). Proof. apply (h_any P HP). Qed.
Lemma h_mkpow' b x : is_pow b = false -> hx P b -> hx P x -> hx P (EPow b x). Proof. apply (h_mkpow P HP). Qed.
Lemma h_sum' l : Forall (hx P) l -> hx P (ESum l). Proof. apply (h_sum P HP). Qed.
Lemma h_prod' l : Forall (hx P) l -> hx P (EProd l). Proof. apply (h_prod P HP). Qed.
Lemma h_log' i b : hx P i -> hx P b -> hx P (ELog i b). Proof. apply (h_mklog P HP). Qed.
Lemma h_trig' f i : hx P i -> hx P (ETrig f i). Proof. apply (h_mktrig P HP). Qed.
Lemma h_abs' i : hx P i -> hx P (EAbs i). Proof. apply (h_abs P HP). Qed.
End Inv.
Ltac known t := lazymatch goal with _ : t |- _ => fail | _ => idtac end.
Ltac knownl P l :=
  lazymatch l with
  | nil => fail
  | cons ?a ?r => first [known (hx P a) | knownl P r]
  | _ => known (Forall (hx P) l)
  end.
Ltac hsat1 :=
  match goal with
  | H : _ /\ _ |- _ => destruct H
  | H : Forall _ (_ :: _) |- _ => apply Forall_cons_iff in H as [? ?]
  | H : Forall _ (_ ++ _) |- _ => apply Forall_app in H as [? ?]
  | HP : HerF ?P, H : hx ?P (ESum ?l) |- _ => knownl P l; pose proof (i_sum P HP l H)
  | HP : HerF ?P, H : hx ?P (EProd ?l) |- _ => knownl P l; pose proof (i_prod P HP l H)
  | HP : HerF ?P, H : hx ?P (EPow ?b ?x) |- _ => known (hx P b); destruct (i_pow P HP b x H)
  | HP : HerF ?P, H : hx ?P (EPow ?b ?x) |- _ => known (hx P x); destruct (i_pow P HP b x H)
  | HP : HerF ?P, H : hx ?P (ELog ?b ?x) |- _ => known (hx P b); destruct (i_log P HP b x H)
  | HP : HerF ?P, H : hx ?P (ELog ?b ?x) |- _ => known (hx P x); destruct (i_log P HP b x H)
  | HP : HerF ?P, H : hx ?P (ETrig ?f ?i) |- _ => known (hx P i); pose proof (i_trig P HP f i H)
  | HP : HerF ?P, H : hx ?P (EAbs ?i) |- _ => known (hx P i); pose proof (i_abs P HP i H)
  end.
Ltac hsat := repeat hsat1.
Lemma in_holds {A} (P : A -> Prop) l t : In t l -> Forall P l -> P t.
Proof. intros H1 H2. rewrite Forall_forall in H2. auto. Qed.
Lemma app_holds {A} (P : A -> Prop) l m : Forall P l -> Forall P m -> Forall P (l ++ m).
Proof. intros. now apply Forall_app. Qed.
Lemma rev_holds {A} (P : A -> Prop) l : Forall P l -> Forall P (rev l).
Proof. apply Forall_rev. Qed.
#[export] Hint Resolve h_any' h_ratq' h_ratz' h_rat' h_inf' h_ninf' h_pi' h_e' h_sum' h_prod' h_log' h_trig' h_abs'
  app_holds rev_holds : her.
#[export] Hint Constructors Forall : her.
#[export] Hint Resolve conj I : her.

(** one step through the program text *)
Ltac hbind :=
  match goal with
  | |- hall ?P (bind ?r ?f) =>
      let T := type of r in
      match T with
      | res bool => apply hall_bind0; intros ?
      | res nat => apply hall_bind0; intros ?
      | res string => apply hall_bind0; intros ?
      | res Q => apply hall_bind0; intros ?
      | res Z => apply hall_bind0; intros ?
      | _ => apply (hall_bind P r f); [|let x := fresh "x" in let H := fresh "H" in intros x H; hn]
      end
  end.
Ltac hsolve := hn; hsat; eauto 8 with her.
Ltac her1 :=
  match goal with
  | |- hall _ (Ok _) => apply hall_ok; hn; hsat; eauto 8 with her
  | |- hall _ (Raise _) => exact I
  | |- hall _ (Stop _) => exact I
  | |- hall _ (guard _ _) => apply hall_guard
  | |- hall _ (bind _ _) => hbind
  | |- hall ?P (mapM ?f ?l) => apply (hall_mapM P f l); [solve [hsolve]|intros ? ?; hn]
  | |- hall _ (if ?b then _ else _) => destruct b eqn:?
  | |- hall _ (let '(a, b) := ?p in _) => destruct p eqn:?
  | |- hall _ (match ?p with _ => _ end) => destruct p eqn:?
  | |- hx _ (if ?b then _ else _) => destruct b
  | |- hall _ _ => solve [hsolve]
  end.
Ltac her := hn; repeat her1; hn; hsat; eauto 8 with her.

Section Ops.
Context (P : expr -> Prop) (HP : HerF P).

Section Kern.
Context (k : kern) (HK : KHer True P k).
Notation hall := (hall P).
Notation P' := (hx P).
Lemma kh_sum' ts : Forall P' ts -> hall (k_sum k ts).
Proof. intros. apply hall_rall. now apply (kh_sum _ _ _ HK). Qed.
Lemma kh_prod' ts : Forall P' ts -> hall (k_prod k ts).
Proof. intros. apply hall_rall. now apply (kh_prod _ _ _ HK). Qed.
Lemma kh_pow' b x : P' b -> P' x -> hall (k_pow k b x).
Proof. intros. apply hall_rall. now apply (kh_pow _ _ _ HK). Qed.
Lemma kh_abs' i : P' i -> hall (k_abs k i).
Proof. intros. apply hall_rall. now apply (kh_abs _ _ _ HK). Qed.
Lemma op_add_h a b : P' a -> P' b -> hall (op_add k a b).
Proof. intros. apply hall_rall. apply op_add_her; auto. exact HP. Qed.
Lemma op_mul_h a b : P' a -> P' b -> hall (op_mul k a b).
Proof. intros. apply hall_rall. apply op_mul_her; auto. exact HP. Qed.
Lemma op_sub_h a b : P' a -> P' b -> hall (op_sub k a b).
Proof. intros. apply hall_rall. apply op_sub_her; auto. exact HP. Qed.
Lemma op_div_h a b : P' a -> P' b -> hall (op_div k a b).
Proof. intros. apply hall_rall. apply op_div_her; auto. exact HP. Qed.
Lemma op_pow_h a b : P' a -> P' b -> hall (op_pow k a b).
Proof. intros. apply hall_rall. apply op_pow_her; auto. exact HP. Qed.
Lemma op_neg_h a : P' a -> hall (op_neg k a).
Proof. intros. apply hall_rall. apply op_neg_her; auto. exact HP. Qed.
Lemma op_abs_h a : P' a -> hall (op_abs k a).
Proof. intros. apply hall_rall. apply op_abs_her; auto. exact HP. Qed.
Lemma sqrtE_h a : P' a -> hall (sqrtE k a).
Proof. intros. apply op_pow_h; auto. apply HP. Qed.
Lemma prod_skip_h ts : Forall P' ts -> hall (prod_skip ts).
Proof. intros. apply hall_rall. apply prod_skip_her; auto. exact HP. Qed.
Lemma decon_pow_h e : P' e -> P (fst (decon_pow e)) /\ P (snd (decon_pow e)).
Proof. apply (decon_pow_her P HP). Qed.
Lemma numden_go_h l : Forall P' l -> hall (numden_go k l).
Proof. intros. apply hall_rall. eapply rall_impl; [apply (numden_go_her True P HP k HK); auto|]. intros [a b] [? ?]; split; auto. Qed.
Lemma numden_h l : Forall P' l -> hall (numden k l).
Proof. intros. apply hall_rall. eapply rall_impl; [apply (numden_her True P HP k HK); auto|]. intros [a b] [? ?]; split; auto. Qed.
End Kern.
End Ops.
#[export] Hint Resolve kh_sum' kh_prod' kh_pow' kh_abs' op_add_h op_mul_h op_sub_h op_div_h op_pow_h op_neg_h op_abs_h
  sqrtE_h prod_skip_h numden_go_h numden_h fh_kern fh_raw fh_log fh_trig : her.

(** ** The constructors *)
Section Fun.
Context (P : expr -> Prop) (HP : HerF P).
Notation hall := (hall P).
Notation P' := (hx P).

Lemma mk_log_h c i b : P' i -> P' b -> hall (mk_log c i b).
Proof. intros. unfold mk_log. her. Qed.

Section Kern.
Context (k : kern) (HK : KHer True P k).
Lemma lookup_h q t : Forall (fun p => hall (snd p)) t -> hall (lookup_q q t).
Proof. induction 1 as [|[p r] t Hr _ IH]; cbn [lookup_q]; [exact I|]. destruct (Qeq_bool p q); auto. Qed.
Lemma over_sqrt2_h z : hall (over_sqrt2 k z).
Proof. unfold over_sqrt2. her. Qed.
Lemma sqrt3_2_h : hall (sqrt3_2 k).
Proof. unfold sqrt3_2. her. Qed.
Lemma nsqrt3_2_h : hall (nsqrt3_2 k).
Proof. unfold nsqrt3_2. her. Qed.
Hint Resolve over_sqrt2_h sqrt3_2_h nsqrt3_2_h : her.
Lemma sin_table_h : Forall (fun p => hall (snd p)) (sin_table k).
Proof. unfold sin_table. repeat (apply Forall_cons || apply Forall_nil); cbn [snd]; her. Qed.
Lemma cos_table_h : Forall (fun p => hall (snd p)) (cos_table k).
Proof. unfold cos_table. repeat (apply Forall_cons || apply Forall_nil); cbn [snd]; her. Qed.
Lemma special_h f q : hall (special k f q).
Proof.
  pose proof (lookup_h q _ sin_table_h) as Hs. pose proof (lookup_h q _ cos_table_h) as Hc.
  unfold special. destruct f; her.
Qed.
Lemma double_simp_h f g x : P' x -> hall (double_simp k f g x).
Proof. intros H. unfold double_simp. destruct f, g; her. Qed.
Lemma find_period_h p l : Forall P' l -> hall (find_period k p l).
Proof. induction 1 as [|t l Ht Hl IH]; cbn [find_period]; her. Qed.
Hint Resolve special_h double_simp_h find_period_h : her.
Lemma trig_inner_h f i : P' i -> hall (trig_inner k f i).
Proof. intros H. unfold trig_inner. destruct i; her. Qed.
Hint Resolve trig_inner_h : her.
Lemma trig_base_h f i : P' i -> hall (trig_base k f i).
Proof. intros H. unfold trig_base. her. Qed.
Hint Resolve trig_base_h : her.
Lemma mk_trig_h n : forall f i, P' i -> hall (mk_trig k n f i).
Proof.
  induction n as [|n IH]; intros f i H; cbn [mk_trig]; [exact I|]. destruct f; her.
Qed.
End Kern.

Lemma gk_h d k : KHer True P k -> KHer True P (gk d k).
Proof.
  intros [H1 H2 H3 H4 H5]. constructor; auto. intros b x Hb Hx. cbn. unfold guard. destruct (_ || _); [auto|exact I].
Qed.
Theorem F_h dom c n : FHer P (F dom c n).
Proof.
  assert (HK : KHer True P (K c n)) by (apply K_her; auto; apply HP).
  constructor; cbn [F kk k_raw k_log k_trig]; [now apply gk_h|exact HK| |]; intros.
  - apply hall_guard. now apply mk_log_h.
  - apply hall_guard. apply mk_trig_h; auto using gk_h.
Qed.
End Fun.

(** ** Substitution and differentiation *)
Section Calc.
Context (P : expr -> Prop) (HP : HerF P) (fk : fkern) (HF : FHer P fk).
Notation hall := (hall P).
Notation P' := (hx P).

Lemma assoc_h m s : Forall (fun p => P' (snd p)) m -> match assoc s m with Some v => P' v | None => True end.
Proof. induction 1 as [|[t v] m Hv _ IH]; cbn [assoc]; auto. destruct (String.eqb t s); auto. Qed.
(** the symbols replaced need not satisfy [P] *)
Fixpoint leaves_ok (Q : string -> Prop) (e : expr) : Prop :=
  match e with
  | ESym s => Q s
  | EAny _ => P e
  | ESum ts | EProd ts => fold_right and True (map (leaves_ok Q) ts)
  | EPow b x | ELog b x => leaves_ok Q b /\ leaves_ok Q x
  | ETrig _ i | EAbs i => leaves_ok Q i
  | _ => True
  end.
Lemma subs_h m e : Forall (fun p => P' (snd p)) m ->
  leaves_ok (fun s => assoc s m = None -> P (ESym s)) e -> hall (subs fk m e).
Proof.
  intros Hm. induction e as [q| | | | |s| |ts IH|ts IH|b x IHb IHx|i b IHi IHb|f i IHi|i IHi] using expr_ind';
    cbn [subs leaves_ok]; intros H; try solve [her].
  - apply hall_ok. hn. pose proof (assoc_h m s Hm). destruct (assoc s m); auto. now apply H.
  - apply (hall_bind P); [|intros; hn; her]. induction IH as [|t l Ht _ IHl]; cbn in H; [constructor|]. destruct H.
    apply (hall_bind P); [auto|]. intros t' Ht'. apply (hall_bind P); [auto|]. intros l' Hl'. her.
  - apply (hall_bind P); [|intros; hn; her]. induction IH as [|t l Ht _ IHl]; cbn in H; [constructor|]. destruct H.
    apply (hall_bind P); [auto|]. intros t' Ht'. apply (hall_bind P); [auto|]. intros l' Hl'. her.
Qed.
Lemma leaves_all (Q : string -> Prop) e : P' e -> (forall s, P (ESym s) -> Q s) -> leaves_ok Q e.
Proof.
  intros H HQ. induction e as [q| | | | |s| |ts IH|ts IH|b x IHb IHx|i b IHi IHb|f i IHi|i IHi] using expr_ind';
    cbn [leaves_ok]; hsat; auto.
  - clear H. induction IH; cbn; auto. hsat; auto.
  - clear H. induction IH; cbn; auto. hsat; auto.
Qed.
Lemma subs_h0 m e : Forall (fun p => P' (snd p)) m -> P' e -> hall (subs fk m e).
Proof. intros Hm H. apply subs_h; auto. apply leaves_all; auto. Qed.

Lemma diff_prod_h d l : (forall e, P' e -> hall (d e)) -> Forall P' l ->
  forall pre, Forall P' pre -> hall (diff_prod fk d pre l).
Proof. intros Hd. induction 1 as [|t l Ht Hl IH]; intros pre Hp; cbn [diff_prod]; her. Qed.
Lemma diffE_h n v : forall e, P' e -> hall (diffE fk n v e).
Proof.
  induction n as [|n IH]; intros e H; cbn [diffE]; [exact I|]. pose proof (diff_prod_h (diffE fk n v)) as Hp.
  destruct e as [q| | | | |s| |ts|ts|b x|i b|f i|i]; her.
Qed.
End Calc.
#[export] Hint Resolve mk_log_h subs_h0 diffE_h : her.
