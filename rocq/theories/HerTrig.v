(** * HerTrig: hereditary properties through the matcher and simplify. *)
From Coquelicot Require Import Coquelicot.
From Verif Require Export HerSimp TrigSimp.

(** ** The matcher *)
Section Match.
Context (P : expr -> Prop) (HP : HerF P) (fk : fkern) (HF : FHer P fk).
Notation hall := (hall P).
Notation P' := (hx P).
Notation MI := (Forall (fun p : string * list expr => Forall P' (snd p))).
Notation MT := (Forall (fun p : string * expr => P' (snd p))).
#[local] Instance h_mip : Holds P mip := MI.
#[local] Instance h_mts : Holds P mts := MT.
Lemma extend_h k l m : Forall P' l -> MI m -> MI (extend k l m).
Proof.
  intros Hl. induction 1 as [|[k' l'] r H Hr IH]; cbn [extend]; [repeat constructor; auto|].
  destruct (String.eqb k k'); constructor; auto. cbn [snd] in *. now apply app_holds.
Qed.
Lemma push_h k e m : P' e -> MI m -> MI (push k e m).
Proof. intros. apply extend_h; auto. Qed.
Lemma join_h d : forall m, MI m -> MT d -> MI (join m d).
Proof. unfold join. induction d as [|[k x] d IH]; intros m Hm Hd; cbn [fold_left]; auto. inversion Hd; subst. apply IH; auto. now apply push_h. Qed.
Lemma join2_h d : forall m, MI m -> MI d -> MI (join2 m d).
Proof. unfold join2. induction d as [|[k x] d IH]; intros m Hm Hd; cbn [fold_left]; auto. inversion Hd; subst. apply IH; auto. now apply extend_h. Qed.
Lemma close_h m : MI m -> hall (Match.close fk m).
Proof.
  induction 1 as [|[k l] r Hl _ IH]; cbn [Match.close]; [constructor|]. apply hall_bind0. intros [|]; [|exact I].
  destruct l as [|a l]; [exact I|]. apply (hall_bind P (HA:=holds_option P mts)); [exact IH|]. intros [d|] Hd; [|exact I].
  cbn [snd] in Hl. inversion Hl; subst. constructor; auto.
Qed.
Definition hooked (hook : expr -> expr -> mip -> res (option mip)) : Prop :=
  forall q e m, P' q -> P' e -> MI m -> hall (hook q e m).
Lemma eqg_h hook (HH : hooked hook) q : forall e m, P' q -> P' e -> MI m -> hall (eqg fk hook q e m).
Proof.
  assert (OKF : forall (b : bool) (m : mip), MI m -> hall (Ok (b, m))) by (intros; split; [exact I|auto]).
  assert (L : forall ql, Forall (fun q => forall e m, P' q -> P' e -> MI m -> hall (eqg fk hook q e m)) ql ->
     forall el m, Forall P' ql -> Forall P' el -> MI m -> hall
     ((fix all (ql el : list expr) (m : mip) {struct ql} : res (bool * mip) :=
    match ql, el with
    | q1 :: ql', e1 :: el' => '(b, m1) <- eqg fk hook q1 e1 m;; if b : bool then all ql' el' m1 else Ok (false, m1)
    | _, _ => Ok (true, m)
    end) ql el m)).
  { induction 1 as [|q1 ql Hq _ IH]; intros [|e1 el] m Hql Hel Hm; auto. hsat.
    apply (hall_bind P (HA:=holds_prod P bool mip)); [auto|]. intros [b m1] [_ Hm1]. destruct b; auto. }
  assert (B2 : forall a c b d m, (forall e m, P' a -> P' e -> MI m -> hall (eqg fk hook a e m)) ->
     (forall e m, P' b -> P' e -> MI m -> hall (eqg fk hook b e m)) -> P' a -> P' b -> P' c -> P' d -> MI m ->
     hall ('(r, m1) <- eqg fk hook a c m;; if r : bool then eqg fk hook b d m1 else Ok (false, m1))).
  { intros a c b d m Ha Hb Pa Pb Pc Pd Hm. apply (hall_bind P (HA:=holds_prod P bool mip)); [auto|].
    intros [r m1] [_ Hm1]. destruct r; auto. }
  induction q as [q| | | |s|s|k|ts IH|ts IH|b x IHb IHx|i b IHi IHb|f i IHi|i IHi] using expr_ind';
    intros e m Hq He Hm; cbn [eqg]; apply hall_bind0; intros bb; destruct bb; auto.
  all: try (match goal with |- hall (if negb ?b then _ else _) => destruct (negb b); [auto|] end;
    apply (hall_bind P (HA:=holds_option P mip)); [now apply HH|]; intros [m'|] Hm'; [auto|]).
  all: try (split; [exact I|now apply push_h]).
  all: destruct e; auto; hsat; auto.
  - destruct (Nat.eqb _ _); auto.
  - destruct (Nat.eqb _ _); auto.
  - destruct (trig_eqb _ _); auto.
Qed.
Lemma run_h hook q e : hooked hook -> P' q -> P' e -> hall (Match.run fk hook q e).
Proof.
  intros HH Hq He. unfold Match.run. apply (hall_bind P (HA:=holds_prod P bool mip)); [apply eqg_h; auto|].
  intros [b m] [_ Hm]. destruct b; [now apply close_h|exact I].
Qed.
Lemma nohook_h : hooked nohook.
Proof. intros q e m _ _ _. exact I. Qed.
Lemma factors_list_h e : P' e -> hall (factors_list e).
Proof.
  intros H. unfold factors_list. destruct e; try (apply hall_ok; repeat constructor; auto; fail). hsat.
  destruct (Nat.ltb _ _); [exact I|]. apply hall_ok. hn. repeat apply app_holds; now apply Forall_filter'.
Qed.
Notation DO := (Forall (fun o : option expr => match o with Some d => P' d | None => True end)).
Lemma div_inner_h f dens : forall m, P' f -> DO dens -> MI m -> hall (div_inner fk f dens m).
Proof.
  intros m Hf Hd. revert m. induction Hd as [|o r Ho Hr IH]; intros m Hm; cbn [div_inner]; [repeat split; auto; constructor|].
  destruct o as [d|].
  - apply (hall_bind P (HA:=holds_option P mts)); [apply run_h; auto using nohook_h|]. intros [ms|] Hms.
    + apply (hall_bind P (HA:=holds_prod P (list (option expr) * mip) bool)); [apply IH; now apply join_h|]. intros [[r' m'] h] [[A B] _].
      exact (conj (conj (Forall_cons None I A) B) I).
    + apply (hall_bind P (HA:=holds_prod P (list (option expr) * mip) bool)); [now apply IH|]. intros [[r' m'] h] [[A B] _].
      exact (conj (conj (Forall_cons (Some d) Ho A) B) I).
  - apply (hall_bind P (HA:=holds_prod P (list (option expr) * mip) bool)); [now apply IH|]. intros [[r' m'] h] [[A B] _].
    exact (conj (conj (Forall_cons None I A) B) I).
Qed.
Lemma div_outer_h nums : forall dens m, Forall P' nums -> DO dens -> MI m -> hall (div_outer fk nums dens m).
Proof.
  induction nums as [|f r IH]; intros dens m Hn Hd Hm; cbn [div_outer]; [repeat split; auto; constructor|]. hsat.
  apply (hall_bind P (HA:=holds_prod P (list (option expr) * mip) bool)); [now apply div_inner_h|]. intros [[d' m'] h] [[A B] _].
  apply (hall_bind P (HA:=holds_prod P (list expr * list (option expr)) mip)); [now apply IH|]. intros [[nf d''] m''] [[C D] E].
  repeat split; auto. destruct h; auto. constructor; auto.
Qed.
Lemma somes_h l : DO l -> Forall P' (somes l).
Proof. unfold somes. induction 1 as [|o r Ho _ IH]; cbn [flat_map]; [constructor|]. apply app_holds; auto. destruct o; auto. Qed.
Lemma divide_h num den : P' num -> P' den -> hall (divide fk num den).
Proof.
  intros Hn Hd. unfold divide. apply (hall_bind P (HA:=holds_list P expr)); [now apply factors_list_h|]. intros nf Hnf.
  apply (hall_bind P (HA:=holds_list P expr)); [now apply factors_list_h|]. intros df Hdf. apply hall_guard.
  apply (hall_bind P (HA:=holds_prod P (list expr * list (option expr)) mip)).
  { apply div_outer_h; auto. rewrite Forall_map. exact Hdf. }
  intros [[nf' dens] m] [[A B] C]. repeat split; auto. now apply somes_h.
Qed.
Lemma dhook_h : hooked (dhook fk).
Proof.
  intros q e m Hq He Hm. unfold dhook. apply (hall_bind P (HA:=holds_prod P (list expr * list expr) mip)); [now apply divide_h|].
  intros [[nf df] dm] [[A B] C]. pose proof (fh_raw _ _ HF) as HK.
  apply (hall_bind P (HA:=holds_expr P)); [now apply kh_prod'|]. intros a Ha.
  apply (hall_bind P (HA:=holds_expr P)); [now apply kh_prod'|]. intros b Hb.
  apply (hall_bind P (HA:=holds_expr P)); [now apply op_div_h|]. intros one Ho. cbv zeta.
  assert (J2 : MI (join2 m dm)) by now apply join2_h.
  destruct (isq one 1); [apply hall_guard; exact J2|].
  assert (G : hall (if isnil (symbols one) then
          match any_keys one with
          | [k] =>
              v <- op_div (k_raw fk) one (EAny k);;
              if has_any v then Ok None
              else guard (negb (k_strict fk) || (isnil df && sign_any k nf v)) (Ok (Some (push k v (join2 m dm))))
          | _ => Ok None
          end
        else Ok None)).
  { destruct (isnil _); [|exact I]. destruct (any_keys one) as [|k [|? ?]]; try exact I.
    apply (hall_bind P (HA:=holds_expr P)); [apply op_div_h; auto; apply h_any'; auto|]. intros v Hv.
    destruct (has_any v); [exact I|]. apply hall_guard. now apply push_h. }
  destruct one; try exact G. apply hall_guard. apply join2_h; auto. apply push_h; auto. now apply h_rat'.
Qed.
Lemma eq_plain_h q e : P' q -> P' e -> hall (eq_plain fk q e).
Proof. intros. unfold eq_plain. destruct (has_any e); [exact I|]. apply run_h; auto using dhook_h. Qed.

Notation RW := (Forall (fun p : string * expr * mts => MT (snd p))).
#[local] Instance h_row : Holds P row := RW.
#[local] Instance h_entry : Holds P (string * expr * mts) := fun p => MT (snd p).
Lemma dset_h r s t d : RW r -> MT d -> RW (dset r s t d).
Proof. intros H Hd. induction H as [|[[s' t'] d'] r' Hp Hr IH]; cbn [dset]; [repeat constructor; auto|]. destruct (String.eqb s s'); constructor; auto. Qed.
Lemma sum_row_h q es : P' q -> Forall (fun p : expr * string => P' (fst p)) es -> forall acc, RW acc -> hall (sum_row fk q es acc).
Proof.
  intros Hq. induction 1 as [|[t s] r Ht _ IH]; intros acc Ha; cbn [sum_row]; [exact Ha|].
  apply (hall_bind P (HA:=holds_option P mts)); [apply run_h; auto using dhook_h|]. intros [d|] Hd; apply IH; auto. now apply dset_h.
Qed.
Lemma sum_rows_h qs es : Forall P' qs -> Forall (fun p : expr * string => P' (fst p)) es -> hall (sum_rows fk qs es).
Proof.
  intros Hq He. induction Hq as [|q r Hq _ IH]; cbn [sum_rows]; [constructor|].
  apply (hall_bind P (HA:=h_row)); [apply sum_row_h; auto; constructor|]. intros w Hw. destruct w as [|p w]; [exact I|].
  apply (hall_bind P (HA:=holds_option P (list row))); [exact IH|]. intros [ws|] Hws; [constructor; auto|exact I].
Qed.
Lemma pick_h rows w : RW w -> hall (pick fk rows w).
Proof.
  induction 1 as [|p r Hp _ IH]; cbn [pick]; [exact I|]. apply hall_bind0. intros [|]; auto.
Qed.
Lemma picks_h rows ws : Forall RW ws -> hall (picks fk rows ws).
Proof.
  induction 1 as [|w r Hw _ IH]; cbn [picks]; [constructor|]. apply (hall_bind P (HA:=holds_option P (string * expr * mts))); [now apply pick_h|].
  intros [p|] Hp; [|exact I]. apply (hall_bind P (HA:=holds_option P (list (string * expr * mts)))); [exact IH|].
  intros [ps|] Hps; [constructor; auto|exact I].
Qed.
Lemma eq_sum_h q e : P' q -> P' e -> hall (eq_sum fk q e).
Proof.
  intros Hq He. unfold eq_sum. destruct q; try exact I. destruct e; try exact I. hsat. destruct (Nat.ltb _ _); [exact I|].
  apply hall_bind0. intros rs. cbv zeta. apply (hall_bind P (HA:=holds_option P (list row))); [apply sum_rows_h; auto; now apply combine_h|].
  intros [rows|] Hr; [|exact I]. apply (hall_bind P (HA:=holds_option P (list (string * expr * mts)))); [now apply picks_h|].
  intros [l|] Hl; [|exact I]. apply (hall_bind P (HA:=holds_option P mts)).
  { apply close_h. assert (J : forall l m, RW l -> MI m -> MI (fold_left (fun m p => join m (snd p)) l m)).
    { clear -HP. induction l as [|p l IH]; intros m Hl Hm; cbn [fold_left]; auto. inversion Hl; subst. apply IH; auto. now apply join_h. }
    apply J; auto. }
  intros [final|] Hf; [|exact I]. apply hall_bind0. intros [|]; [|exact I]. apply hall_guard.
  apply (hall_bind P (HA:=holds_expr P)).
  { apply kh_sum'; [apply (fh_kern _ _ HF)|]. rewrite Forall_map. apply Forall_filter'. now apply combine_h. }
  intros rest Hrest. split; auto.
Qed.
Lemma lookup_h k m x : MT m -> lookup k m = Some x -> P' x.
Proof. induction 1 as [|[k' a] r Ha _ IH]; cbn [lookup]; [discriminate|]. destruct (String.eqb k k'); auto. intros E. injection E as <-. auto. Qed.
Lemma factor_match_h fkey akey m : MT m -> hall (factor_match fkey akey m).
Proof.
  intros Hm. unfold factor_match. destruct (lookup fkey m) as [f|] eqn:E; [|exact I]. destruct (lookup akey m) as [a|] eqn:E2; [|exact I].
  destruct (Nat.eqb _ _); [|exact I]. split; eapply lookup_h; eauto.
Qed.
(** ** simplify *)
Lemma is_sq_h cls e i : is_sq cls e = Some i -> P' e -> P' i.
Proof.
  destruct e; try discriminate. cbn [is_sq]. destruct e1; try discriminate. intros H He. destruct (_ && _); [|discriminate].
  injection H as <-. hsat. auto.
Qed.
Lemma thing_squared_h cls t : P' t -> hall (thing_squared fk cls t).
Proof.
  intros H. unfold thing_squared. destruct (is_sq cls t) eqn:E; [apply hall_ok; split; [eapply is_sq_h; eauto|now apply h_rat']|].
  destruct t; try exact I. assert (H1 := i_prod P HP _ H). revert H1. generalize ts at 1 3. intros l Hl.
  induction Hl as [|f r Hf _ IH]; [exact I|]. destruct (is_sq cls f) eqn:E'; [|exact IH].
  apply (hall_bind P (HA:=holds_expr P)); [her|]. intros c Hc. split; [eapply is_sq_h; eauto|exact Hc].
Qed.
Lemma psomes_h l : Forall (holds (P:=P)) l -> Forall (fun p => P' (fst p) /\ P' (snd p)) (psomes l).
Proof. unfold psomes. induction 1 as [|o r Ho _ IH]; cbn [flat_map]; [constructor|]. apply app_holds; auto. destruct o; auto. Qed.
Lemma keepb_h {A} (Q : A -> Prop) l bs : Forall Q l -> Forall Q (keepb l bs).
Proof.
  intros H. unfold keepb. rewrite Forall_map. apply Forall_filter'. revert bs. induction H; intros [|b bs]; cbn [combine]; constructor; auto.
Qed.
Lemma pyth_loop_h ids e : Forall (fun p => P' (fst p)) ids -> P' e -> hall (pyth_loop fk ids e).
Proof.
  intros Hi He. induction Hi as [|[q g] r Hq _ IH]; cbn [pyth_loop]; [exact I|].
  apply (hall_bind P (HA:=holds_option P (mts * expr))); [now apply eq_sum_h|]. intros [[d rest]|] Hd; [|exact IH]. destruct Hd as [Hd Hr].
  apply (hall_bind P (HA:=holds_prod P expr expr)); [now apply factor_match_h|]. intros [f i] [Hf Hi']. cbn [fst snd] in *. hn.
  her.
Qed.
Lemma pyth_ids_h : Forall (fun p => P' (fst p)) pyth_identities.
Proof.
  unfold pyth_identities, q_plus, q_minus, q_minus1. repeat (apply Forall_cons || apply Forall_nil); cbn [fst];
  apply (h_sum' P HP); auto; repeat (apply Forall_cons || apply Forall_nil); try apply (h_any' P HP); auto; apply (h_prod' P HP); auto;
  repeat (apply Forall_cons || apply Forall_nil); try apply (h_any' P HP); try apply (h_rat' P HP); auto;
  apply (h_mkpow' P HP); auto; try apply (h_rat' P HP); auto; apply (h_trig' P HP); auto; apply (h_any' P HP); auto.
Qed.
Lemma pythagorean_h e : P' e -> hall (pythagorean fk e).
Proof.
  intros H. unfold pythagorean. destruct e; try exact I. hsat.
  destruct (negb _); [exact I|]. destruct (negb _); [exact I|].
  apply (hall_bind P (HA:=holds_list P (option (expr * expr)))).
  { apply (hall_mapM P (HA:=holds_expr P)); auto. intros; now apply thing_squared_h. }
  intros ss Hss. apply hall_bind0. intros cs. apply hall_bind0. intros bs. cbv zeta.
  pose proof (psomes_h _ (keepb_h _ ss bs Hss)) as Hb. destruct (psomes (keepb ss bs)) as [|b0 both] eqn:E.
  - destruct (has_any _); [exact I|]. apply pyth_loop_h; auto. apply pyth_ids_h.
  - apply hall_bind0. intros xs. apply hall_bind0. intros bx. apply hall_guard. apply (hall_bind P (HA:=holds_expr P)); [|auto].
    apply kh_sum'; [apply (fh_kern _ _ HF)|]. apply app_holds; [now apply keepb_h|]. rewrite Forall_map. eapply Forall_impl; [|exact Hb]. intros ? [? Hq]; exact Hq.
Qed.
Lemma to_sin_cos_h f i : P' i -> match to_sin_cos fk f with Some g => hall (g i) | None => True end.
Proof. intros H. destruct f; cbn [to_sin_cos]; auto; her. Qed.
Lemma pythagorean_complex_h e : P' e -> hall (pythagorean_complex fk e).
Proof.
  intros H. unfold pythagorean_complex. destruct e; try exact I.
  apply (hall_bind P (HA:=holds_expr P)); [apply replace_class_h; auto; intros; now apply to_sin_cos_h|]. intros n Hn.
  apply (hall_bind P (HA:=holds_option P expr)); [now apply one_fraction_h|]. intros [n'|] Hn'; [|exact I].
  apply (hall_bind P (HA:=holds_prod P expr bool)); [apply kinder_h; auto; intros; now apply pythagorean_h|]. intros [n2 hit] [Hn2 _].
  destruct hit; [|exact I]. apply (hall_bind P (HA:=holds_expr P)); [now apply reciprocate_trigs_h|]. auto.
Qed.
Lemma comb_loop_h ids e : Forall (fun p => P' (fst p)) ids -> P' e -> hall (comb_loop fk ids e).
Proof.
  intros Hi He. induction Hi as [|[q g] r Hq _ IH]; cbn [comb_loop]; [exact I|].
  apply (hall_bind P (HA:=holds_option P mts)); [now apply eq_plain_h|]. intros [d|] Hd; [|exact IH].
  apply (hall_bind P (HA:=holds_prod P expr expr)); [now apply factor_match_h|]. intros [f i] [Hf Hi']. cbn [fst snd] in *. hn. her.
Qed.
Lemma combine_trigs_h e : P' e -> hall (combine_trigs fk e).
Proof.
  intros H. unfold combine_trigs. destruct e; try exact I. apply comb_loop_h; auto. unfold comb_identities.
  repeat (apply Forall_cons || apply Forall_nil); cbn [fst]; apply (h_prod' P HP); auto; repeat (apply Forall_cons || apply Forall_nil);
  try apply (h_any' P HP); auto; apply (h_trig' P HP); auto; apply (h_any' P HP); auto.
Qed.
Lemma trig_simplify_h n e : P' e -> hall (trig_simplify fk n e).
Proof.
  intros H. unfold trig_simplify. apply (hall_bind P (HA:=holds_prod P expr bool)).
  { apply kinder_many_h; auto. repeat (apply Forall_cons || apply Forall_nil); intros; [now apply pythagorean_h|now apply pythagorean_complex_h|now apply reciprocate1_h]. }
  intros [e1 h1] [H1 _]. apply (hall_bind P (HA:=holds_prod P expr bool)); [|intros [e2 h2] [H2 _]; split; [exact H2|exact I]].
  apply kinder_many_h; auto. repeat (apply Forall_cons || apply Forall_nil); intros; [now apply combine_trigs_h|now apply product_to_sum_h|now apply sectan_h].
Qed.
Lemma pythagorean_simplification_h e : P' e -> hall (pythagorean_simplification fk e).
Proof.
  intros H. unfold pythagorean_simplification. apply (hall_bind P (HA:=holds_prod P expr bool)); [|intros [e2 h2] [H2 _]; exact H2].
  apply kinder_h; auto. intros. now apply pythagorean_h.
Qed.
Lemma simplifyE_h n e : P' e -> hall (simplifyE fk n e).
Proof.
  intros H. unfold simplifyE. apply (hall_bind P (HA:=holds_expr P)); [now apply expand_if_h|]. intros e1 H1.
  apply (hall_bind P (HA:=holds_prod P expr bool)); [destruct (has_trig e1); [now apply trig_simplify_h|split; [exact H1|exact I]]|].
  intros [e2 hit] [H2 _]. apply (hall_bind P (HA:=holds_expr P)); [destruct (has_log e2); [now apply expand_logs_h|exact H2]|].
  intros e3 H3. destruct hit; [exact H3|]. destruct (is_simpler e3 e); [exact H3|exact H].
Qed.
End Match.
#[export] Hint Resolve simplifyE_h pythagorean_simplification_h : her.
