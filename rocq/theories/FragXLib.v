(** * FragXLib: expandable, tree rewriting and simplify on polynomials in opaque bases. *)
From Coquelicot Require Import Coquelicot.
From Verif Require Import Base Expr Kernel Mono Funcs FMono Calc Sem RealLemmas Sound Atoms Combi Expand Factor Regex Simp TrigSimp Frag FragX.
From Coq Require Import Lqa Qpower.
Close Scope R_scope.
Open Scope Z_scope.

Section Lib.
Context {j : nat} (B : expr -> Prop) (HB : opaqueJ j B).
Context (X : expr -> Q -> Prop) (XC : forall b p q, (p == q)%Q -> X b p -> X b q) (XA : forall b p q, X b p -> X b q -> X b (p + q)%Q) (X1 : forall b, B b -> X b 1%Q).
Notation atom := (oatom B X). Notation fac := (ofac B X). Notation mono := (omono B X). Notation poly := (opoly B X).
Hint Constructors oatom ofac omono opoly : core.
Local Ltac opb := repeat match goal with H : B ?b |- _ => is_var b; let G := fresh "G" in pose proof (op_shape HB b H) as G; destruct b; try discriminate G; clear G end.
Context (dom : expr -> bool) (c : cfg) (n : nat).
Notation fk := (F dom c (10 + j + n)).
(** the monitor accepts the powers that occur, and their reciprocals *)
Context (HD : forall b q, B b -> X b q -> pow_always b (ERat q) || dom (EPow b (ERat q)) = true)
  (HN : forall b q, B b -> X b q -> (q < 0)%Q -> pow_always b (rat (- q)) || dom (EPow b (rat (- q))) = true)
  (HE : forall b, B b -> expandable fk b = Ok false).

Lemma fk_pow_baseJ b q : B b -> pow_always b (ERat q) || dom (EPow b (ERat q)) = true ->
  k_pow fk b (ERat q) = if Qeq_bool q 0 then Ok (ERat 1) else if Qeq_bool q 1 then Ok b else Ok (EPow b (ERat q)).
Proof.
  intros Hb G. change (k_pow fk b (ERat q)) with (guard (pow_always b (ERat q) || dom (EPow b (ERat q))) (k_pow (K c (S (9 + j + n))) b (ERat q))).
  rewrite G. cbn [guard]. now apply (k_pow_base B HB).
Qed.
Lemma fk_pow_monoJ b q : B b -> X b q -> exists r, k_pow fk b (ERat q) = Ok r /\ mono r.
Proof.
  intros Hb Hq. rewrite fk_pow_baseJ by auto. destruct (Qeq_bool q 0) eqn:E0; [eauto 6|]. destruct (Qeq_bool q 1); [eauto 6|].
  exists (EPow b (ERat q)). split; auto. apply omono_fac, ofac_at, oat_pow; auto. intros Z. apply Qeq_bool_iff in Z. congruence.
Qed.

(** ** expandable() is false *)
Lemma numden_fac l : Forall fac l -> exists m d, numden_go fk l = Ok (m, d) /\
  Forall (oifac B) m /\ Forall (oifac B) d /\ (List.length (rats m) <= List.length (rats l))%nat /\ (List.length (rats d) <= List.length (rats l))%nat.
Proof.
  induction 1 as [|t l T H (m & d & IH & I1 & I2 & I4 & I5)].
  - exists [], []. repeat split; auto; constructor.
  - destruct T as [a [s Hs|s q Hs Hq H0]|q].
    + rewrite (numden_base B HB), IH by auto. cbn [bind]. exists (s :: m), d. split; [reflexivity|]. split; [constructor; auto; now apply oif_b|].
      rewrite !(rats_cons B HB) by auto. repeat split; auto.
    + cbn [numden_go decon_pow]. rewrite IH. cbn [bind]. destruct (qlt0 q) eqn:L.
      * apply qlt0_iff in L. destruct (Qeq_bool q (-1)) eqn:E1.
        { exists m, (s :: d). rewrite (rats_cons B HB s d) by auto. change (rats (EPow s (ERat q) :: l)) with (rats l).
          repeat split; auto. constructor; auto. now apply oif_b. }
        change (k_pow (kk fk)) with (k_pow fk). unfold rat. rewrite fk_pow_baseJ by (auto; apply (HN s q); auto).
        assert (E0 : Qeq_bool (Qred (- q)) 0 = false).
        { apply Bool.not_true_is_false. rewrite Qeq_bool_iff, Qred_correct. lra. }
        assert (E2 : Qeq_bool (Qred (- q)) 1 = false).
        { apply Bool.not_true_is_false. rewrite Qeq_bool_iff, Qred_correct. intros E. apply Qeq_bool_neq in E1. apply E1. lra. }
        rewrite E0, E2. cbn [bind]. exists m, (EPow s (ERat (Qred (- q))) :: d). repeat split; auto. constructor; auto.
        apply oif_pow; auto. rewrite Qred_correct. lra.
      * apply qlt0_f in L. exists (EPow s (ERat q) :: m), d. split; [reflexivity|].
        split; [constructor; auto; apply oif_pow; auto; lra|]. repeat split; auto.
    + cbn [numden_go]. rewrite IH. cbn [bind]. eexists _, _. split; [reflexivity|].
      assert (Z : forall z, oifac B (ratz z)) by (intros z; apply oif_rat; apply RealLemmas.qisint_inject).
      unfold rats in *. cbn [filter is_rat List.length]. repeat split.
      * destruct (numer q =? 1); auto.
      * destruct (denom q =? 1); auto.
      * destruct (numer q =? 1); simpl; lia.
      * destruct (denom q =? 1); simpl; lia.
Qed.
Lemma ifac_acc l : Forall (oifac B) l -> filter is_acc l = rats l /\ existsb is_sum l = false.
Proof.
  induction 1 as [|t l T H (A & C)]; [auto|]. unfold rats in *. cbn [filter existsb]. rewrite A, C.
  destruct T as [s Hs|s q Hs P|q Hi]; [|auto|auto]. opb; auto.
Qed.
Lemma numdenF_fac ts : Forall fac ts -> (List.length (rats ts) <= 1)%nat -> exists m d, numdenF fk ts = Ok (m, d) /\
  (match d with EProd ds => existsb is_sum ds | _ => false end) = false.
Proof.
  intros F R. unfold numdenF. destruct (numden_fac ts F) as (m & d & E & I1 & I2 & I3 & I4). rewrite E. cbn [bind].
  assert (G : one_constb m && one_constb d = true).
  { unfold one_constb. rewrite (proj1 (ifac_acc m I1)), (proj1 (ifac_acc d I2)). apply andb_true_intro. rewrite !Nat.leb_le. split; lia. }
  rewrite G, orb_true_r. cbn [guard].
  destruct (prod_skip_gfac B HB m (ifac_gfacs B m I1)) as (em & -> & _).
  destruct (prod_skip_gfac B HB d (ifac_gfacs B d I2)) as (ed & -> & Hd). cbn [bind]. exists em, ed. split; [reflexivity|].
  destruct Hd as [->|Gd]; [now apply ifac_acc|]. pose proof (gfac_noprod B HB ed Gd) as P. destruct ed; auto; discriminate.
Qed.
Lemma expandable_ofac t : fac t -> expandable fk t = Ok false /\ is_sum t = false.
Proof.
  intros [a [s Hs|s q Hs Hq H0]|q]; [split; [now apply HE|opb; reflexivity]| |split; reflexivity]. split; [|reflexivity]. cbn [expandable power_expandable].
  assert (S : is_sum s = false) by (opb; reflexivity). rewrite S, andb_false_r. now rewrite (HE s Hs).
Qed.
Lemma expandable_omono t : mono t -> expandable fk t = Ok false.
Proof.
  intros [e Fe|ts L Fs R N]; [now apply expandable_ofac|]. cbn [expandable].
  match goal with |- (b <- ?a is_sum ts;; _) = _ => assert (A : a is_sum ts = Ok false) end.
  { clear -Fs HE HB. induction Fs as [|t ts T Fs IH]; auto. destruct (expandable_ofac t T) as [A1 A2]. rewrite A1, A2. cbn [bind]. exact IH. }
  rewrite A. cbn [bind]. destruct (numdenF_fac ts Fs R) as (m & d & E & H). rewrite E. cbn [bind]. now rewrite H.
Qed.
Lemma expandable_opolyJ t : poly t -> expandable fk t = Ok false.
Proof.
  intros [e M|ts L Fs]; [now apply expandable_omono|]. cbn [expandable]. clear L. induction Fs as [|u us T Fs IH]; auto. rewrite (expandable_omono u T). cbn [bind]. exact IH.
Qed.

(** ** Rewriting that only touches the bases, and leaves them as they are *)
Section Walk.
Context (p : expr -> res (option (expr * bool)))
  (Pr : forall q, p (ERat q) = Ok None) (Pp : forall b x, p (EPow b x) = Ok None) (Ppr : forall ts, p (EProd ts) = Ok None) (Psu : forall ts, p (ESum ts) = Ok None)
  (Pb : forall b, B b -> exists h, walk fk p b = Ok (b, h)).
Lemma walk_fac t : fac t -> exists r h, walk fk p t = Ok (r, h) /\ mono r.
Proof.
  intros [a [s Hs|s q Hs Hq H0]|q].
  - destruct (Pb s Hs) as (h & E). eauto 8.
  - destruct (Pb s Hs) as (h & E). cbn [walk]. rewrite Pp. cbn [bind]. rewrite E. cbn [bind]. rewrite Pr. cbn [bind].
    destruct (fk_pow_monoJ s q Hs Hq) as (r & Er & M). rewrite Er. cbn [bind]. eauto.
  - cbn [walk]. rewrite Pr. cbn [bind]. eauto 8.
Qed.
Lemma walk_mono t : mono t -> exists r h, walk fk p t = Ok (r, h) /\ mono r.
Proof.
  intros [e Fe|ts L Fs R N]; [now apply walk_fac|]. cbn [walk]. rewrite Ppr. cbn [bind].
  match goal with |- exists r h, ('(ts', h0) <- ?g ts;; _) = _ /\ _ => assert (G : exists ts' h, g ts = Ok (ts', h) /\ Forall mono ts') end.
  { clear -Fs Pr Pp Pb HD HB X1. induction Fs as [|t ts T Fs (ts' & h & IH & M)]; [eauto|]. destruct (walk_fac t T) as (r & h0 & E & Mr). rewrite E. cbn [bind]. rewrite IH. cbn [bind]. eauto. }
  destruct G as (ts' & h & -> & M). cbn [bind]. destruct (k_prod_monosJ B HB X XC XA X1 c (4 + n) ts' M) as (r & E & Mr).
  replace (6 + j + (4 + n))%nat with (10 + j + n)%nat in E by lia. change (k_prod fk ts') with (k_prod (K c (10 + j + n)) ts'). rewrite E. cbn [bind]. eauto.
Qed.
Lemma walk_poly t : poly t -> exists r h, walk fk p t = Ok (r, h) /\ poly r.
Proof.
  intros [e M|ts L Fs]; [destruct (walk_mono e M) as (r & h & E & Mr); eauto|]. cbn [walk]. rewrite Psu. cbn [bind].
  match goal with |- exists r h, ('(ts', h0) <- ?g ts;; _) = _ /\ _ => assert (G : exists ts' h, g ts = Ok (ts', h) /\ Forall poly ts') end.
  { clear -Fs Pr Pp Ppr Pb HD HB X1 XA XC. induction Fs as [|t ts T Fs (ts' & h & IH & M)]; [eauto|]. destruct (walk_mono t T) as (r & h0 & E & Mr). rewrite E. cbn [bind]. rewrite IH. cbn [bind]. eauto 6. }
  destruct G as (ts' & h & -> & M). cbn [bind]. destruct (k_sum_polyJ B HB X c n ts' M) as (r & E & Mr).
  change (k_sum fk ts') with (k_sum (K c (10 + j + n)) ts'). rewrite E. cbn [bind]. eauto.
Qed.
End Walk.

(** the nodes of a polynomial *)
Lemma opoly_quiet (p : expr -> bool) t : (forall q, p (ERat q) = false) -> (forall b, B b -> gcontains p b = false) -> (forall b x, p (EPow b x) = false) ->
  (forall ts, p (EProd ts) = false) -> (forall ts, p (ESum ts) = false) -> poly t -> gcontains p t = false.
Proof.
  intros P1 P2 P3 P4 P5.
  assert (Fc : forall t, fac t -> gcontains p t = false).
  { intros u [e [s Hs|s q Hs Hq H0]|q]; [now apply P2| |cbn [gcontains]; now rewrite P1]. cbn [gcontains]. rewrite P3, (P2 s Hs). cbn. now rewrite P1. }
  assert (Mc : forall t, mono t -> gcontains p t = false).
  { intros u [e Fe|ts L Fs R N]; auto. cbn [gcontains]. rewrite P4. cbn [orb]. clear -Fc Fs. induction Fs as [|a l A H IH]; auto. cbn [existsb]. now rewrite (Fc a A), IH. }
  intros [e M|ts L Fs]; auto. cbn [gcontains]. rewrite P5. cbn [orb]. clear -Mc Fs. induction Fs as [|a l A H IH]; auto. cbn [existsb]. now rewrite (Mc a A), IH.
Qed.

(** simplify, when there is no trigonometric function and every logarithm among the bases is left as it is *)
Lemma simplify_opolyJ d t : (forall b, B b -> has_trig b = false) ->
  (forall b, B b -> exists h, walk fk (fun t => first_perform [log_perform fk] t) b = Ok (b, h)) ->
  poly t -> exists r, simplifyE fk d t = Ok r /\ poly r.
Proof.
  intros Ht Hw P. unfold simplifyE, expand_if. rewrite (expandable_opolyJ t P). cbn [bind]. unfold has_trig in *. rewrite opoly_quiet by auto. cbn [bind].
  assert (G : exists r, (if has_log t then expand_logs fk d t else Ok t) = Ok r /\ poly r).
  { destruct (has_log t); [|eauto]. unfold expand_logs, kinder_replace, kinder_replace_many.
    destruct (walk_poly (fun t => first_perform [log_perform fk] t)) with (t := t) as (r & h & E & Pr); auto.
    cbv iota. rewrite E. cbn [bind]. unfold expand_if. rewrite (expandable_opolyJ r Pr). cbn [bind]. eauto. }
  destruct G as (r & -> & Pr). cbn [bind]. destruct (is_simpler r t); eauto.
Qed.
End Lib.


(** the case of bases that print with recursion bound 3 *)
Section Zero.
Context (B : expr -> Prop) (HB : opaque B).
Lemma fk_pow_base (dom : expr -> bool) c n b q : B b -> pow_always b (ERat q) || dom (EPow b (ERat q)) = true ->
  k_pow (F dom c (10 + n)) b (ERat q) = if Qeq_bool q 0 then Ok (ERat 1) else if Qeq_bool q 1 then Ok b else Ok (EPow b (ERat q)).
Proof. exact (fk_pow_baseJ B HB dom c n b q). Qed.
Lemma fk_pow_mono (X : expr -> Q -> Prop) (dom : expr -> bool) c n
  (HD : forall b q, B b -> X b q -> pow_always b (ERat q) || dom (EPow b (ERat q)) = true) b q : B b -> X b q ->
  exists r, k_pow (F dom c (10 + n)) b (ERat q) = Ok r /\ omono B X r.
Proof. exact (fk_pow_monoJ B HB X dom c n HD b q). Qed.
Lemma expandable_opoly (X : expr -> Q -> Prop) (dom : expr -> bool) c n
  (HN : forall b q, B b -> X b q -> (q < 0)%Q -> pow_always b (rat (- q)) || dom (EPow b (rat (- q))) = true)
  (HE : forall b, B b -> expandable (F dom c (10 + n)) b = Ok false) t : opoly B X t -> expandable (F dom c (10 + n)) t = Ok false.
Proof. exact (expandable_opolyJ B HB X dom c n HN HE t). Qed.
Lemma simplify_opoly (X : expr -> Q -> Prop) (XC : forall b p q, (p == q)%Q -> X b p -> X b q) (XA : forall b p q, X b p -> X b q -> X b (p + q)%Q)
  (X1 : forall b, B b -> X b 1%Q) (dom : expr -> bool) c n
  (HD : forall b q, B b -> X b q -> pow_always b (ERat q) || dom (EPow b (ERat q)) = true)
  (HN : forall b q, B b -> X b q -> (q < 0)%Q -> pow_always b (rat (- q)) || dom (EPow b (rat (- q))) = true)
  (HE : forall b, B b -> expandable (F dom c (10 + n)) b = Ok false) d t : (forall b, B b -> has_trig b = false) ->
  (forall b, B b -> exists h, walk (F dom c (10 + n)) (fun t => first_perform [log_perform (F dom c (10 + n))] t) b = Ok (b, h)) ->
  opoly B X t -> exists r, simplifyE (F dom c (10 + n)) d t = Ok r /\ opoly B X r.
Proof. exact (simplify_opolyJ B HB X XC XA X1 dom c n HD HN HE d t). Qed.
End Zero.
