(** * PropsJ: what the results are made of (C51, C67, C68).

    Reading guide: [PropsC.PF c n] is the plain code, [GF dom c n] the monitored code (PropsC.v).  The
    theorems of this file about the library quantify over plain runs: nothing is monitored, and every
    rational power, however computed, is allowed. *)
From Coquelicot Require Import Coquelicot.
From Verif Require Import Base Expr Kernel Mono Funcs FMono Calc Sem RealLemmas Sound SoundPow Atoms Agree Oracle
  FSound CalcSound Cont Combi Expand ExpandSound Factor Regex Simp Pts Match TrigSimp Poly PolyQ Table Trans TransMono TransSound
  Search SearchMono SearchSound Shape Interval PropsA PropsC PropsD PropsE PropsF
  Her HerLib HerSimp HerTrig HerTrans HerSearch Pure.
Local Open Scope R_scope.

(** ** Specifications *)
(** every symbol of [e] belongs to [S] *)
Definition within (S : string -> Prop) (e : expr) : Prop := forall s, In s (names e) -> S s.
(** no subexpression of [e] is a power whose base is itself a power *)
Fixpoint no_pp (e : expr) : Prop :=
  match e with
  | EPow b x => is_pow b = false /\ no_pp b /\ no_pp x
  | ESum ts | EProd ts => fold_right and True (map no_pp ts)
  | ELog i b => no_pp i /\ no_pp b
  | ETrig _ i | EAbs i => no_pp i
  | _ => True
  end.

(** A property of expressions that every public operation passes on from its arguments to its result.
    [d] is the recursion bound of the functions that have one. *)
Record kept_by_library (c : cfg) (n d : nat) (P : expr -> Prop) : Prop := {
  by_sum : forall ts e, k_sum (PropsC.PF c n) ts = Ok e -> Forall P ts -> P e;
  by_prod : forall ts e, k_prod (PropsC.PF c n) ts = Ok e -> Forall P ts -> P e;
  by_pow : forall b x e, k_pow (PropsC.PF c n) b x = Ok e -> P b -> P x -> P e;
  by_abs : forall i e, k_abs (PropsC.PF c n) i = Ok e -> P i -> P e;
  by_log : forall i b e, k_log (PropsC.PF c n) i b = Ok e -> P i -> P b -> P e;
  by_trig : forall f i e, k_trig (PropsC.PF c n) f i = Ok e -> P i -> P e;
  by_add : forall a b e, op_add (PropsC.PF c n) a b = Ok e -> P a -> P b -> P e;
  by_mul : forall a b e, op_mul (PropsC.PF c n) a b = Ok e -> P a -> P b -> P e;
  by_subtract : forall a b e, op_sub (PropsC.PF c n) a b = Ok e -> P a -> P b -> P e;
  by_div : forall a b e, op_div (PropsC.PF c n) a b = Ok e -> P a -> P b -> P e;
  by_neg : forall a e, op_neg (PropsC.PF c n) a = Ok e -> P a -> P e;
  by_power : forall a b e, op_pow (PropsC.PF c n) a b = Ok e -> P a -> P b -> P e;
  by_diff : forall v e r, diffE (PropsC.PF c n) d v e = Ok r -> P e -> P r;
  by_subs : forall m e r, subs (PropsC.PF c n) m e = Ok r -> Forall (fun p => P (snd p)) m -> P e -> P r;
  by_expand : forall e r, expandE (PropsC.PF c n) d e = Ok r -> P e -> P r;
  by_factor : forall ts r, factorE (PropsC.PF c n) ts = Ok r -> Forall P ts -> P r;
  by_replace : forall e old new r, replaceE (PropsC.PF c n) e old new = Ok r -> P e -> P new -> P r;
  by_logs : forall e r, expand_logs (PropsC.PF c n) d e = Ok r -> P e -> P r;
  by_pts : forall e r, product_to_sum_unit (PropsC.PF c n) d e = Ok (Some r) -> P e -> P r;
  by_trig_simplify : forall e r hit, trig_simplify (PropsC.PF c n) d e = Ok (r, hit) -> P e -> P r;
  by_simplify : forall e r, simplifyE (PropsC.PF c n) d e = Ok r -> P e -> P r }.

Lemma kept c n d P (HP : HerF P) : kept_by_library c n d P.
Proof.
  pose proof (F_h P HP nodom (faithful c) n) as HF. fold (PropsC.PF c n) in HF.
  assert (Q : forall (r : res expr) e, r = Ok e -> hall P r -> P e) by (intros r e ->; auto).
  assert (QK : forall (r : res expr) e, r = Ok e -> rall True P r -> P e) by (intros r e ->; auto).
  pose proof (fh_kern _ _ HF) as HK.
  constructor; intros.
  - eapply QK; [eassumption|]. now apply (kh_sum _ _ _ HK).
  - eapply QK; [eassumption|]. now apply (kh_prod _ _ _ HK).
  - eapply QK; [eassumption|]. now apply (kh_pow _ _ _ HK).
  - eapply QK; [eassumption|]. now apply (kh_abs _ _ _ HK).
  - eapply Q; [eassumption|]. now apply (fh_log _ _ HF).
  - eapply Q; [eassumption|]. now apply (fh_trig _ _ HF).
  - eapply Q; [eassumption|]. now apply op_add_h.
  - eapply Q; [eassumption|]. now apply op_mul_h.
  - eapply Q; [eassumption|]. now apply op_sub_h.
  - eapply Q; [eassumption|]. now apply op_div_h.
  - eapply Q; [eassumption|]. now apply op_neg_h.
  - eapply Q; [eassumption|]. now apply op_pow_h.
  - eapply Q; [eassumption|]. now apply diffE_h.
  - eapply Q; [eassumption|]. now apply subs_h0.
  - eapply Q; [eassumption|]. now apply expandE_h.
  - eapply Q; [eassumption|]. now apply factorE_h.
  - eapply Q; [eassumption|]. now apply (replaceE_h2 P P).
  - eapply Q; [eassumption|]. now apply expand_logs_h.
  - assert (T : hall P (product_to_sum_unit (PropsC.PF c n) d e)) by now apply product_to_sum_unit_h. rewrite H in T. exact T.
  - assert (T : hall P (trig_simplify (PropsC.PF c n) d e)) by now apply trig_simplify_h. rewrite H in T. apply T.
  - eapply Q; [eassumption|]. now apply simplifyE_h.
Qed.

Lemma names_contains e s : In s (names e) <-> contains s e = true.
Proof.
  induction e as [q| | | | |t| |ts IH|ts IH|b x IHb IHx|i b IHi IHb|f i IHi|i IHi] using expr_ind'; cbn [names contains];
    try (split; [intros []|discriminate]); try (rewrite in_app_iff, orb_true_iff; tauto); auto.
  - split; [intros [->|[]]; apply String.eqb_refl|]. intros E. apply String.eqb_eq in E. now left.
  - rewrite in_flat_map, existsb_exists. rewrite Forall_forall in IH. split; intros (t & Ht & H); exists t; split; auto; now apply IH.
  - rewrite in_flat_map, existsb_exists. rewrite Forall_forall in IH. split; intros (t & Ht & H); exists t; split; auto; now apply IH.
Qed.
Lemma within_her S : HerF (within S).
Proof.
  assert (L : forall ts, (forall s, In s (flat_map names ts) -> S s) <-> Forall (within S) ts).
  { intros ts. rewrite Forall_forall. unfold within. split.
    - intros H t Ht s Hs. apply H. apply in_flat_map. eauto.
    - intros H s Hs. apply in_flat_map in Hs as (t & Ht & Hs). eauto. }
  constructor; [apply mkHer| | | | |]; unfold within; cbn [names]; try (intros; contradiction); auto.
  - intros b x. split; [intros H; split; intros s Hs; apply H, in_or_app; auto|]. intros [H1 H2] s Hs. apply in_app_or in Hs as []; auto.
  - intros b x H; split; intros s Hs; apply H, in_or_app; auto.
  - intros i. tauto.
  - intros i b H1 H2 s Hs. apply in_app_or in Hs as []; auto.
Qed.
Lemma no_pp_list ts : fold_right and True (map no_pp ts) <-> Forall no_pp ts.
Proof. induction ts as [|t ts IH]; cbn; [split; auto|]. rewrite IH. split; [intros []; constructor; auto|intros H; inversion H; auto]. Qed.
Lemma no_pp_her : HerF no_pp.
Proof.
  constructor; [constructor| | | | |]; cbn [no_pp]; auto using no_pp_list; try tauto.
Qed.
Lemma both_her P Q : HerF P -> HerF Q -> HerF (fun e => P e /\ Q e).
Proof.
  intros HP HQ.
  assert (L : forall ts, Forall (fun e => P e /\ Q e) ts <-> Forall P ts /\ Forall Q ts).
  { intros ts. rewrite !Forall_forall. firstorder. }
  constructor; [constructor| | | | |]; intros.
  - split; [apply (h_rat P HP)|apply (h_rat Q HQ)].
  - split; [apply (h_inf P HP)|apply (h_inf Q HQ)].
  - split; [apply (h_ninf P HP)|apply (h_ninf Q HQ)].
  - rewrite L, (h_sum P HP), (h_sum Q HQ). tauto.
  - rewrite L, (h_prod P HP), (h_prod Q HQ). tauto.
  - destruct H as [H1 H2]. apply (h_pow P HP) in H1. apply (h_pow Q HQ) in H2. tauto.
  - split; [apply (h_mkpow P HP)|apply (h_mkpow Q HQ)]; tauto.
  - destruct H as [H1 H2]. apply (h_log P HP) in H1. apply (h_log Q HQ) in H2. tauto.
  - destruct H as [H1 H2]. apply (h_trig P HP) in H1. apply (h_trig Q HQ) in H2. tauto.
  - rewrite (h_abs P HP), (h_abs Q HQ). tauto.
  - split; [apply (h_pi P HP)|apply (h_pi Q HQ)].
  - split; [apply (h_e P HP)|apply (h_e Q HQ)].
  - split; [apply (h_mklog P HP)|apply (h_mklog Q HQ)]; tauto.
  - split; [apply (h_mktrig P HP)|apply (h_mktrig Q HQ)]; tauto.
  - split; [apply (h_any P HP)|apply (h_any Q HQ)].
Qed.

(** ** C51: no symbol appears from nowhere *)
Theorem c51_library c n d S : kept_by_library c n d (within S).
Proof. apply kept, within_her. Qed.
Lemma leaves_names (S Q : string -> Prop) e : (forall s, In s (names e) -> Q s) -> leaves_ok (within S) Q e.
Proof.
  induction e as [q| | | | |t| |ts IH|ts IH|b x IHb IHx|i b IHi IHb|f i IHi|i IHi] using expr_ind'; cbn [names leaves_ok]; intros H; auto.
  - apply H. now left.
  - intros s [].
  - induction IH as [|t l Ht _ IHl]; cbn in *; auto. split; [apply Ht|apply IHl]; intros s Hs; apply H, in_or_app; auto.
  - induction IH as [|t l Ht _ IHl]; cbn in *; auto. split; [apply Ht|apply IHl]; intros s Hs; apply H, in_or_app; auto.
  - split; [apply IHb|apply IHx]; intros s Hs; apply H, in_or_app; auto.
  - split; [apply IHi|apply IHb]; intros s Hs; apply H, in_or_app; auto.
Qed.
Lemma assoc_none {A} s (m : list (string * A)) : assoc s m = None -> forall p, In p m -> fst p <> s.
Proof.
  induction m as [|[t a] m IH]; cbn [assoc]; intros H p []; subst; cbn [fst].
  - intros ->. now rewrite String.eqb_refl in H.
  - destruct (String.eqb t s); [discriminate|]. now apply IH.
Qed.
Lemma subs_within dom c n (S : string -> Prop) m e : (forall p s, In p m -> In s (names (snd p)) -> S s) ->
  (forall s, In s (names e) -> (forall p, In p m -> fst p <> s) -> S s) -> hall (within S) (subs (F dom c n) m e).
Proof.
  intros Hm He. apply subs_h; [apply within_her|apply F_h, within_her|..].
  - apply Forall_forall. intros p Hp t Ht. eauto.
  - apply leaves_names. intros s Hs Ha t [->|[]]. apply He; auto. now apply assoc_none.
Qed.
(** a substituted symbol is gone, unless a replacing expression mentions it *)
Theorem c51_subs c n m e r s : subs (PropsC.PF c n) m e = Ok r -> In s (names r) ->
  (In s (names e) /\ forall p, In p m -> fst p <> s) \/ exists p, In p m /\ In s (names (snd p)).
Proof.
  set (S := fun s => (In s (names e) /\ forall p, In p m -> fst p <> s) \/ exists p, In p m /\ In s (names (snd p))).
  intros H. assert (W : within S r); [|apply W].
  assert (HH : hall (within S) (subs (PropsC.PF c n) m e)); [|rewrite H in HH; exact HH].
  apply subs_within; unfold S; eauto.
Qed.

(** ** C67: no power of a power *)
Theorem c67_no_power_of_power c n d : kept_by_library c n d no_pp.
Proof. apply kept, no_pp_her. Qed.

(** ** C68: the scope of an integral *)
Section Scope.
Context (c : cfg) (dom : expr -> bool) (rng : string -> expr -> bool) (n m : nat) (Hn : (n <= m)%nat) (d d' : nat) (Hd : (d <= d')%nat).
Notation gf := (GF dom c n).
Notation pf := (PropsC.PF c m).
Notation anyr := (fun _ _ => true).
Let L : fle gf pf := GF_le dom c n m Hn.
Let LR : forall y u, rng y u = true -> anyr y u = true := fun _ _ _ => eq_refl.
Definition fam (S : string -> Prop) (e : expr) : Prop := within S e /\ no_pp e.
Lemma fam_scope nm bf k fin (S0 : string -> Prop) e v F : integrate gf rng nm d bf k fin e v = Ok (Some F) ->
  (within (fun s => S0 s \/ s = v) e -> within (fun s => S0 s \/ s = v) F) /\
  (fam (fun s => S0 s \/ s = v) e -> fam (fun s => S0 s \/ s = v) F).
Proof.
  assert (Heq : forall s, k_eq gf (ESym s) (ESym s) <> Ok false).
  { intros s. cbn. unfold py_eq. cbn. rewrite String.eqb_refl. discriminate. }
  intros H. split.
  - apply (integrate_scope_strict within within_her) with (fk := gf) (rng := rng) (nm := nm) (n := d) (bf := bf) (k := k) (fin := fin); auto.
    + intros S S' e0 HS W s Hs. auto.
    + intros S s. split; [intros W; apply W; now left|]. intros W t [<-|[]]. exact W.
    + intros S. apply F_h, within_her.
  - assert (HP : forall S, HerF (fam S)) by (intros S; apply both_her; [apply within_her|apply no_pp_her]).
    apply (integrate_scope_strict fam HP) with (fk := gf) (rng := rng) (nm := nm) (n := d) (bf := bf) (k := k) (fin := fin); auto.
    + intros S S' e0 HS [W N]. split; auto. intros s Hs. auto.
    + intros S s. split; [intros [W _]; apply W; now left|]. intros W. split; [|exact I]. intros t [<-|[]]. exact W.
    + intros S. apply F_h, HP.
Qed.
Theorem c68_scope nm bf k fin e v F : integrate gf rng nm d bf k fin e v = Ok (Some F) ->
  integrate pf anyr nm d' bf k fin e v = Ok (Some F) /\ forall s, In s (names F) -> In s (names e) \/ s = v.
Proof.
  intros H. split; [eapply rle_ok; [apply integrate_mono; [exact L|exact LR|exact Hd]|exact H]|].
  apply (fam_scope _ _ _ _ (fun s => In s (names e))) in H. apply (proj1 H). intros s Hs. now left.
Qed.
Theorem c67_integrate nm bf k fin e v F : integrate gf rng nm d bf k fin e v = Ok (Some F) ->
  integrate pf anyr nm d' bf k fin e v = Ok (Some F) /\ (no_pp e -> no_pp F).
Proof.
  intros H. split; [eapply rle_ok; [apply integrate_mono; [exact L|exact LR|exact Hd]|exact H]|].
  intros N. apply (fam_scope _ _ _ _ (fun s => In s (names e))) in H. apply (proj2 H). split; auto. intros s Hs. now left.
Qed.
(** the bounds replace the variable *)
Theorem c68_definite nm bf k e v a b r : integrate_bounds gf rng nm d bf k e v a b = Ok (Some r) ->
  integrate_bounds pf anyr nm d' bf k e v a b = Ok (Some r) /\
  forall s, In s (names r) -> (In s (names e) /\ s <> v) \/ In s (names a) \/ In s (names b).
Proof.
  intros H. split; [eapply rle_ok; [apply integrate_bounds_mono; [exact L|exact LR|exact Hd]|exact H]|].
  unfold integrate_bounds in H. apply bind_ok in H as (o & HF & H). destruct o as [F|]; [|discriminate].
  apply c68_scope in HF as [_ HF]. apply bind_ok in H as (fb & Hb & H). apply bind_ok in H as (fa & Ha & H).
  apply bind_ok in H as (df & Hdf & H). apply bind_ok in H as (r' & Hr & H). injection H as <-.
  set (S := fun s => (In s (names e) /\ s <> v) \/ In s (names a) \/ In s (names b)). change (within S r').
  pose proof (F_h (within S) (within_her S) dom (strictly c) n) as FH.
  assert (Sb : forall x fx, x = a \/ x = b -> subs gf [(v, x)] F = Ok fx -> within S fx).
  { intros x fx Hx E. assert (T : hall (within S) (subs gf [(v, x)] F)); [|rewrite E in T; exact T].
    apply subs_within.
    - intros p s [<-|[]]. cbn [snd]. unfold S. destruct Hx; subst x; auto.
    - intros s Hs Np. destruct (HF s Hs) as [He| ->]; [|destruct (Np (v, x)); [now left|reflexivity]].
      left. split; auto. intros ->. apply (Np (v, x)); [now left|reflexivity]. }
  apply Sb in Hb; auto. apply Sb in Ha; auto.
  assert (T1 : hall (within S) (op_sub gf fb fa)) by (apply op_sub_h; auto; [apply within_her|apply (fh_kern _ _ FH)]).
  rewrite Hdf in T1. assert (T2 : hall (within S) (simplifyE gf d df)) by (apply simplifyE_h; auto; apply within_her).
  rewrite Hr in T2. exact T2.
Qed.
End Scope.

(** Concrete cases: a substitution, and an integration by parts with a second symbol; the tree of the first
    has a node in a new variable. *)
Example c68_ex :
  (exists F, intp (EProd [ESym "y"; sx; EPow EE (EPow sx (ERat 2))]) "x" = Ok (Some F) /\ names F <> []) /\
  (exists F, intp (EProd [sx; EPow EE (EProd [ERat 2; sx])]) "x" = Ok (Some F)) /\
  (exists r, integrate_bounds gp (ivrng bpos) unm 40 false 25 (EProd [ESym "y"; sx]) "x" (ERat 0) (ESym "z") = Ok (Some r) /\
     names r = ["y"; "z"]%string).
Proof.
  repeat match goal with |- _ /\ _ => split end; eexists; [split; [vm_compute; reflexivity|]|vm_compute; reflexivity|split; [vm_compute; reflexivity|]].
  all: cbn. discriminate. reflexivity.
Qed.
Example c67_ex : let f := PropsC.PF exact_cfg 30 in
  no_pp (EPow sx (ERat (1 # 2))) /\
  op_pow f (EPow sx sy) (ERat 3) = Ok (EPow sx (EProd [ERat 3; sy])) /\
  subs f [("y"%string, EPow sx (ERat 2))] (EPow sy (ERat 3)) = Ok (EPow sx (ERat 6)) /\
  ~ no_pp (EPow (EPow sx (ERat 2)) (ERat 3)).
Proof. cbv zeta. cbn [no_pp is_pow]. repeat split; try (vm_compute; reflexivity). intros [H _]. discriminate H. Qed.
Example c51_ex : let f := PropsC.PF exact_cfg 30 in
  exists r, diffE f 30 "x" (EProd [sy; ETrig Sin sx]) = Ok r /\ incl (names r) ["x"; "y"]%string.
Proof. cbv zeta. eexists. split; [vm_compute; reflexivity|]. intros s H. cbn in *. tauto. Qed.
